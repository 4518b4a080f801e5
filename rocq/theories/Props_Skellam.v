(** Properties C43-C47 and C67 (skellam.py).  pmf, pcdf, prob, half_prob and the
    events diff_* are defined in SkellamSpec. *)
From Coq Require Import Reals List ZArith Lra Lia.
From Coquelicot Require Import Coquelicot.
From Verif Require Import Prelude AnalyticSpec SkellamModel SkellamSpec SkellamProofs SkellamRoots SkellamRoots2.
Import List ListNotations.
Local Open Scope R_scope.

(** C43: pmf and derivative. *)
Theorem C43_vector : forall a m, exists p d, poisson_vector a (S m) = Ok (p, d) /\
  length p = S m /\ length d = S m /\
  forall u, (u <= m)%nat -> nth u p 0 = pmf a u /\ is_derive (fun s => pmf s u) a (nth u d 0).
Proof.
  intros a m. eexists _, _. split; [apply poisson_vector_eq|]. rewrite !map_length, !seq_length. split; [reflexivity|]. split; [reflexivity|].
  intros u Hu. assert (E : forall f, nth u (map f (seq 0 (S m))) 0 = f u).
  { intros f. rewrite (nth_indep _ 0 (f 0%nat)) by (rewrite map_length, seq_length; lia). rewrite map_nth, seq_nth by lia. reflexivity. }
  rewrite !E. split; [reflexivity|apply D_pmf].
Qed.
Print Assumptions C43_vector.
(** P(X <= n) = pcdf a (n+1); its derivative is -P(X = n). *)
Theorem C43_cdf : forall a n, exists F d, poisson_cdf a n = Ok (F, d) /\ F = pcdf a (S n) /\
  is_derive (fun s => pcdf s (S n)) a d /\ d = - pmf a n.
Proof.
  intros a n. eexists _, _. split; [apply poisson_cdf_eq|]. split; [reflexivity|]. split; [|reflexivity].
  rewrite <- Rsum_dpmf. apply D_pcdf.
Qed.
Print Assumptions C43_cdf.
Theorem C43_mid_cdf : forall a n, exists F d, poisson_mid_cdf a n = Ok (F, d) /\ F = pcdf a n + / 2 * pmf a n /\
  is_derive (fun s => pcdf s n + / 2 * pmf s n) a d.
Proof. intros a n. destruct (poisson_mid_cdf_eq a n) as (d & E & D). eexists _, d. split; [exact E|]. split; [reflexivity|exact D]. Qed.
Print Assumptions C43_mid_cdf.
Example C43_nonvacuous : pmf 2 3 = exp (- (2)) * (8 / 6) /\ pcdf 1 2 = exp (- (1)) * 2.
Proof. unfold pcdf, pmf, Rsum. cbn [seq map fold_right pow fact]. split; cbn; field. Qed.

(** C44: a returned number is a positive approximate root; bounded work; failures are
    returned (not raised) as exception classes. *)
Theorem C44_root : forall ndtri junk fuel target n tol, 0 < target < 1 -> (51 <= fuel)%nat ->
  exists v it calls, poisson_cdf_root ndtri junk fuel target n tol = Some (Ok (v, (it, calls))) /\
  (it <= 51)%nat /\ (calls <= 11 * it)%nat /\
  match v with
  | VNum a => 0 < a /\ Rabs (target - pcdf a (S n)) <= Rabs tol /\ (it <= 50)%nat
  | VClass x => x = ConvergenceError /\ it = 51%nat
  end.
Proof. exact poisson_cdf_root_ok. Qed.
Print Assumptions C44_root.
(** The equation being solved has exactly one solution. *)
Theorem C44_unique : forall target n, 0 < target < 1 -> exists! a, 0 < a /\ pcdf a (S n) = target.
Proof. exact root_exists_unique. Qed.
Print Assumptions C44_unique.
Theorem C44_invalid_is_returned : forall ndtri junk fuel target n tol, target <= 0 \/ 1 <= target ->
  poisson_cdf_root ndtri junk fuel target n tol = Some (Ok (VClass ValueError, (O, O))).
Proof.
  intros. unfold poisson_cdf_root. destruct (Rle_dec 1 target); [reflexivity|]. destruct (Rle_dec target 0); [reflexivity|lra].
Qed.
Print Assumptions C44_invalid_is_returned.
Example C44_nonvacuous : 0 < / 2 < 1 /\
  poisson_cdf_root (fun _ => 0) 0 51 (/ 2) 0 1 = Some (Ok (VNum (proot_guess (fun _ => 0) (/ 2) 0), (O, O))).
Proof.
  split; [lra|]. unfold poisson_cdf_root. destruct (Rle_dec 1 (/ 2)); [lra|]. destruct (Rle_dec (/ 2) 0); [lra|].
  cbn [proot_loop]. destruct (Rlt_dec (Rabs 1) (Rabs 1)); [lra|reflexivity].
Qed.

(** C45: which probabilities are computed: the first rate is the subtracted one. *)
Theorem C45_cdf : forall ndtri a b n tol (inverse : bool), 0 < tol < 1 -> ndtri tol <= 0 -> 0 <= a -> 0 <= b ->
  let E := if inverse then diff_ge n else diff_le n in
  exists N da db, is_size (size_arg (ndtri tol) a b) N /\
  skellam_cdf ndtri a b n tol inverse = Ok [prob a b N N E; da; db] /\
  is_derive (fun s => prob s b N N E) a da /\ is_derive (fun s => prob a s N N E) b db.
Proof.
  intros ndtri a b n tol inv Ht Hq Ha Hb E.
  assert (Hs : 0 <= size_arg (ndtri tol) a b) by (unfold size_arg; pose proof (sqrt_pos a); pose proof (sqrt_pos b); nra).
  destruct (skellam_cdf_total ndtri a b n tol inv Ht Hs) as (r & Er).
  destruct (skellam_cdf_ok _ _ _ _ _ _ _ Er) as (N & HN & da & db & -> & H1 & H2). exists N, da, db. auto.
Qed.
Print Assumptions C45_cdf.
Theorem C45_pair : forall ndtri a b n tol, 0 < tol < 1 -> ndtri tol <= 0 -> 0 <= a -> 0 <= b ->
  exists N da db da' db', is_size (size_arg (ndtri tol) a b) N /\
  skellam_cdf_pair ndtri a b n tol = Ok ([prob a b N N (diff_lt n); da; db], [prob a b N N (diff_gt n); da'; db']) /\
  is_derive (fun s => prob s b N N (diff_lt n)) a da /\ is_derive (fun s => prob a s N N (diff_lt n)) b db /\
  is_derive (fun s => prob s b N N (diff_gt n)) a da' /\ is_derive (fun s => prob a s N N (diff_gt n)) b db'.
Proof.
  intros ndtri a b n tol Ht Hq Ha Hb.
  assert (Hs : 0 <= size_arg (ndtri tol) a b) by (unfold size_arg; pose proof (sqrt_pos a); pose proof (sqrt_pos b); nra).
  destruct (skellam_cdf_pair_total ndtri a b n tol Ht Hs) as ([p q] & Er).
  destruct (skellam_cdf_pair_ok _ _ _ _ _ _ _ Er) as (N & HN & (da & db & -> & H1 & H2) & (da' & db' & -> & H3 & H4)).
  exists N, da, db, da', db'. repeat match goal with |- _ /\ _ => split end; auto.
Qed.
Print Assumptions C45_pair.
(** Finding: the first number is not P(X - Y < n) as the docstring of
    skellam_cdf_root says: with Y = 0 almost surely X - Y < 0 is impossible, yet the
    number returned for n = 0 is positive. *)
Theorem C45_docstring_orientation_false : forall ndtri a tol, 0 < tol < 1 -> ndtri tol <= 0 -> 1 <= a ->
  exists p q, skellam_cdf_pair ndtri a 0 0 tol = Ok (p, q) /\ 0 < nth 0 p 0 /\
  forall N, prob a 0 N N (fun x y => (Z.of_nat x - Z.of_nat y <? 0)%Z) = 0.
Proof.
  intros ndtri a tol Ht Hq Ha. destruct (C45_pair ndtri a 0 0 tol Ht Hq ltac:(lra) ltac:(lra)) as (N & da & db & da' & db' & HN & E & _).
  eexists _, _. split; [exact E|]. split.
  - cbn [nth]. assert (H2 : (2 <= N)%nat).
    { apply sizes_gt in HN. unfold size_arg in HN. rewrite sqrt_0 in HN. pose proof (sqrt_pos a).
      assert (1 < INR N) by nra. apply (INR_lt 1) in H0. lia. }
    eapply Rlt_le_trans; [|apply (prob_mono a 0 (diff_lt 0) 2 N); [lra|lra|exact H2]].
    unfold prob. cbn [seq]. rewrite !Rsum_cons, !Rsum_nil. unfold diff_lt. cbn. rewrite !pmf_0. cbn.
    pose proof (pmf_pos a 1 ltac:(lra)). pose proof (pmf_pos a 0 ltac:(lra)). lra.
  - intros M. unfold prob. apply Rsum_zero. intros i _. apply Rsum_zero. intros j _. rewrite pmf_0.
    destruct (Z.ltb_spec (Z.of_nat i - Z.of_nat j) 0); [|reflexivity]. destruct (Nat.eqb_spec j 0); [lia|ring].
Qed.
Print Assumptions C45_docstring_orientation_false.
Example C45_nonvacuous : prob 1 0 2 2 (diff_lt 0) = exp (- (1)) /\ is_size (size_arg (-1) 1 0) 3.
Proof.
  split.
  - unfold prob. cbn [seq]. rewrite !Rsum_cons, !Rsum_nil. unfold diff_lt. cbn. rewrite !pmf_0. cbn. unfold pmf; cbn. field.
  - left. unfold size_arg. rewrite sqrt_0, sqrt_1. cbn. lra.
Qed.

(** C67: the truncation error is controlled. *)
Theorem C67_truncation : forall ndtri a b n tol (inverse : bool), 0 < tol < 1 -> ndtri tol < 0 -> 0 <= a -> 0 <= b ->
  exists v da db L, skellam_cdf ndtri a b n tol inverse = Ok [v; da; db] /\
  true_prob a b (if inverse then diff_ge n else diff_le n) L /\
  v <= L <= v + 2 / (ndtri tol) ^ 2.
Proof.
  intros ndtri a b n tol inv Ht Hq Ha Hb.
  destruct (C45_cdf ndtri a b n tol inv Ht ltac:(lra) Ha Hb) as (N & da & db & HN & E & _).
  destruct (true_prob_exists a b (if inv then diff_ge n else diff_le n) Ha Hb) as (L & HL & HB).
  eexists _, da, db, L. split; [exact E|]. split; [exact HL|]. destruct (HB N) as [H1 H2]. split; [exact H1|].
  destruct (tail_bound (ndtri tol) a b N Ha Hb Hq HN) as [T1 T2].
  pose proof (pcdf_le_1 a N Ha). pose proof (pcdf_le_1 b N Hb). pose proof (pcdf_nonneg a N Ha). pose proof (pcdf_nonneg b N Hb).
  replace (2 / ndtri tol ^ 2) with (1 / ndtri tol ^ 2 + 1 / ndtri tol ^ 2) by (unfold Rdiv; ring). nra.
Qed.
Print Assumptions C67_truncation.
Example C67_nonvacuous : exists v da db L, skellam_cdf (fun _ => -2) 1 1 0 (/ 100) false = Ok [v; da; db] /\
  true_prob 1 1 (diff_le 0) L /\ v <= L <= v + 2 / (-2) ^ 2.
Proof. apply (C67_truncation (fun _ => -2) 1 1 0 (/ 100) false); lra. Qed.

(** C46 *)
Theorem C46_root : forall ndtri solve fuel t1 t2 n tol,
  0 < t1 -> 0 < t2 -> t1 + t2 < 1 -> Rabs tol < 1 -> (51 <= fuel)%nat ->
  exists r, skellam_cdf_root ndtri solve fuel t1 t2 n tol = Some r /\
  match r with
  | Ok (a, b, it) => / 1000000 <= a /\ / 1000000 <= b /\ (it <= 50)%nat /\
      exists N, is_size (size_arg (ndtri tol) a b) N /\
      sqrt ((prob a b N N (diff_lt n) - t1) ^ 2 + (prob a b N N (diff_gt n) - t2) ^ 2) <= Rabs tol
  | Raise x => x = ValueError \/ x = TypeError \/ exists M v, solve M v = Raise x
  end.
Proof. exact skellam_cdf_root_ok. Qed.
Print Assumptions C46_root.
Theorem C46_invalid : forall ndtri solve fuel t1 t2 n tol, t1 <= 0 \/ t2 <= 0 \/ 1 <= t1 + t2 ->
  skellam_cdf_root ndtri solve fuel t1 t2 n tol = Some (Raise ValueError).
Proof.
  intros ndtri solve fuel t1 t2 n tol H. unfold skellam_cdf_root. destruct (Rle_dec 1 (t1 + t2)); [reflexivity|].
  destruct (Rle_dec (Rmin t1 t2) 0) as [|Hn]; [reflexivity|]. exfalso. apply Hn.
  destruct H as [H|[H|H]]; [|eapply Rle_trans; [apply Rmin_r|exact H]|lra]. eapply Rle_trans; [apply Rmin_l|exact H].
Qed.
Print Assumptions C46_invalid.
(** Finding: non-convergence (here: a solver that always answers the null step, from a
    guess that is not a root) surfaces as TypeError, not ConvergenceError. *)
Theorem C46_nonconvergence_is_TypeError : forall ndtri t1 t2 n tol fuel a b,
  0 < t1 -> 0 < t2 -> t1 + t2 < 1 -> 0 < tol < 1 -> ndtri tol <= 0 -> (51 <= fuel)%nat ->
  a = Rmax ((1 / (ndtri (1 - t2) - ndtri t1) ^ 2 + (/ 2 * (ndtri (1 - t2) + ndtri t1) / (ndtri (1 - t2) - ndtri t1) - IZR n)) * / 2) (/ 1000000) ->
  b = Rmax ((1 / (ndtri (1 - t2) - ndtri t1) ^ 2 - (/ 2 * (ndtri (1 - t2) + ndtri t1) / (ndtri (1 - t2) - ndtri t1) - IZR n)) * / 2) (/ 1000000) ->
  (forall N, is_size (size_arg (ndtri tol) a b) N ->
     tol < sqrt ((prob a b N N (diff_lt n) - t1) ^ 2 + (prob a b N N (diff_gt n) - t2) ^ 2)) ->
  skellam_cdf_root ndtri (fun _ _ => Ok (0, 0)) fuel t1 t2 n tol = Some (Raise TypeError).
Proof.
  intros ndtri t1 t2 n tol fuel a b H1 H2 H3 Ht Hq Hf Ea Eb Hg. unfold skellam_cdf_root. destruct (Rle_dec 1 (t1 + t2)); [lra|].
  destruct (Rle_dec (Rmin t1 t2) 0) as [Hm|_].
  - exfalso. destruct (Rle_dec t1 t2); [rewrite Rmin_left in Hm by lra; lra|rewrite Rmin_right in Hm by lra; lra].
  - fold floor_ in Ea, Eb. cbn zeta. rewrite <- Ea, <- Eb.
    assert (0 < a) by (rewrite Ea; eapply Rlt_le_trans; [|apply Rmax_r]; unfold floor_; lra).
    assert (0 < b) by (rewrite Eb; eapply Rlt_le_trans; [|apply Rmax_r]; unfold floor_; lra).
    apply sroot_stuck; auto; try lia.
    + rewrite Ea. apply Rmax_r.
    + rewrite Eb. apply Rmax_r.
    + unfold size_arg. pose proof (sqrt_pos a). pose proof (sqrt_pos b). nra.
    + intros N HN. rewrite Rabs_pos_eq by lra. now apply Hg.
    + rewrite Rabs_pos_eq; lra.
Qed.
Print Assumptions C46_nonconvergence_is_TypeError.

(** A run that returns: the guess is the exact root. *)
Example C46_nonvacuous : exists ndtri t1 t2, 0 < t1 /\ 0 < t2 /\ t1 + t2 < 1 /\
  skellam_cdf_root ndtri (fun _ _ => Ok (0, 0)) 51 t1 t2 0 (/ 100) = Some (Ok (/ 2, / 2, 1%nat)).
Proof.
  set (E1 := exp (- (1))).
  assert (HE : / 3 <= E1 < / 2).
  { unfold E1. rewrite exp_Ropp. pose proof exp_le_3. pose proof (exp_ineq1 1 ltac:(lra)).
    split; [apply Rinv_le_contravar; lra|apply Rinv_lt_contravar; lra]. }
  assert (HP : forall f : nat -> nat -> bool, prob (/ 2) (/ 2) 3 3 f =
     E1 * ((if f 0%nat 0%nat then 1 else 0) + (if f 0%nat 1%nat then / 2 else 0) + (if f 0%nat 2%nat then / 8 else 0) + (if f 1%nat 0%nat then / 2 else 0)
     + (if f 1%nat 1%nat then / 4 else 0) + (if f 1%nat 2%nat then / 16 else 0) + (if f 2%nat 0%nat then / 8 else 0) + (if f 2%nat 1%nat then / 16 else 0)
     + (if f 2%nat 2%nat then / 64 else 0))).
  { intros f. assert (EE : exp (- / 2) * exp (- / 2) = E1) by (unfold E1; rewrite <- exp_plus; f_equal; field).
    unfold prob. cbn [seq]. rewrite !Rsum_cons, !Rsum_nil. unfold pmf. cbn [pow fact]. rewrite <- EE.
    repeat match goal with |- context [f ?i ?j] => destruct (f i j) end; cbn; field. }
  set (t1 := prob (/ 2) (/ 2) 3 3 (diff_lt 0)). set (t2 := prob (/ 2) (/ 2) 3 3 (diff_gt 0)).
  assert (V1 : t1 = E1 * (11 / 16)) by (unfold t1; rewrite HP; unfold diff_lt; cbn; field).
  assert (V2 : t2 = E1 * (11 / 16)) by (unfold t2; rewrite HP; unfold diff_gt; cbn; field).
  set (nd := fun x => if Req_EM_T x t1 then - / 2 else if Req_EM_T x (1 - t2) then / 2 else -1).
  assert (N1 : nd t1 = - / 2) by (unfold nd; destruct (Req_EM_T t1 t1); [reflexivity|lra]).
  assert (N2 : nd (1 - t2) = / 2).
  { unfold nd. destruct (Req_EM_T (1 - t2) t1); [lra|]. destruct (Req_EM_T (1 - t2) (1 - t2)); [reflexivity|lra]. }
  assert (N3 : nd (/ 100) = -1).
  { unfold nd. destruct (Req_EM_T (/ 100) t1); [lra|]. destruct (Req_EM_T (/ 100) (1 - t2)); [lra|reflexivity]. }
  exists nd, t1, t2. split; [lra|]. split; [lra|]. split; [lra|].
  unfold skellam_cdf_root. destruct (Rle_dec 1 (t1 + t2)); [lra|].
  destruct (Rle_dec (Rmin t1 t2) 0) as [Hm|_]; [exfalso; rewrite V1, V2, Rmin_left in Hm by lra; lra|].
  cbn zeta. rewrite N1, N2. unfold floor_ at 1 2.
  match goal with |- context [sroot_loop _ _ _ _ _ _ _ ?a ?b _ _] =>
    replace a with (/ 2) by (replace (/ 2 - - / 2) with 1 by lra; rewrite Rmax_left; [field|unfold Rdiv; rewrite pow1, Rinv_1; lra]);
    replace b with (/ 2) by (replace (/ 2 - - / 2) with 1 by lra; rewrite Rmax_left; [field|unfold Rdiv; rewrite pow1, Rinv_1; lra]) end.
  assert (Hs : sqrt (/ 2) < 1) by (rewrite <- sqrt_1; apply sqrt_lt_1; lra).
  assert (Hs' : / 2 < sqrt (/ 2)) by (rewrite <- (sqrt_pow2 (/ 2)) at 1 by lra; apply sqrt_lt_1; lra).
  assert (Hsz : is_size (size_arg (-1) (/ 2) (/ 2)) 3) by (left; unfold size_arg; cbn; lra).
  destruct (C45_pair nd (/ 2) (/ 2) 0 (/ 100)) as (N & da & db & da' & db' & HN & E & _); try lra.
  rewrite N3 in HN.
  assert (N = 3%nat) by (eapply is_size_unique; [|exact HN|exact Hsz]; unfold size_arg; lra). subst N.
  fold t1 t2 in E. cbn [sroot_loop]. destruct (Rlt_dec (Rabs (/ 100)) 1) as [_|Hx]; [|rewrite Rabs_pos_eq in Hx; lra].
  rewrite E. cbn [rbind nth].
  assert (Hps : pair_s nd (/ 2) (/ 2) 0 (/ 100) = Ok (t1, t2)) by (unfold pair_s; now rewrite E).
  rewrite (proj1 (sroot_inner_null nd 10 t1 t2 0 (/ 100) (/ 2) (/ 2) (norm2 (t1 - t1) (t2 - t2)) ltac:(unfold floor_; lra) ltac:(unfold floor_; lra)
      ltac:(intros s1 s2 Hp; rewrite Hps in Hp; inversion Hp; reflexivity) ltac:(eauto) 1)). cbn [rbind].
  change (50 <? 1)%nat with false. cbv iota.
  assert (Z : norm2 (t1 - t1) (t2 - t2) = 0).
  { unfold norm2. replace ((t1 - t1) ^ 2 + (t2 - t2) ^ 2) with 0 by ring. apply sqrt_0. }
  rewrite Z. cbn [sroot_loop].
  destruct (Rlt_dec (Rabs (/ 100)) 0) as [Hx|_]; [pose proof (Rabs_pos (/ 100)); lra|]. reflexivity.
Qed.
Example C46_nonconvergence_nonvacuous :
  skellam_cdf_root (fun x => x - 1) (fun _ _ => Ok (0, 0)) 51 (/ 4) (/ 4) 100 (/ 100) = Some (Raise TypeError).
Proof.
  eapply C46_nonconvergence_is_TypeError; try reflexivity; try lra; try lia.
  set (a := Rmax _ _). set (b := Rmax _ _).
  assert (Ea : a = / 1000000) by (unfold a; apply Rmax_right; lra).
  assert (Eb : b = 105 / 2) by (unfold b; rewrite Rmax_left; lra).
  intros N HN. apply (Rlt_le_trans _ (/ 4)); [lra|].
  assert (HNb : INR N < 100).
  { assert (H : INR N <= size_arg (/ 100 - 1) a b + 1 \/ N = 1%nat) by (destruct HN as [H|[H _]]; [left; lra|now right]).
    destruct H as [H|H]; [|rewrite H; cbn; lra]. unfold size_arg in H. rewrite Ea, Eb in H.
    assert (sqrt (/ 1000000) < 1) by (rewrite <- sqrt_1; apply sqrt_lt_1; lra).
    assert (sqrt (105 / 2) < 8) by (rewrite <- (sqrt_pow2 8) by lra; apply sqrt_lt_1; lra). lra. }
  assert (HP : prob a b N N (diff_gt 100) = 0).
  { unfold prob. apply Rsum_zero. intros i _. apply Rsum_zero. intros j Hj. apply in_seq in Hj. unfold diff_gt.
    destruct (Z.ltb_spec 100 (Z.of_nat j - Z.of_nat i)); [|reflexivity]. exfalso.
    assert (100 < INR N); [|lra]. rewrite INR_IZR_INZ. apply IZR_lt. lia. }
  rewrite HP. rewrite <- (sqrt_pow2 (/ 4)) at 1 by lra. apply sqrt_le_1.
  - apply pow2_ge_0.
  - pose proof (pow2_ge_0 (prob a b N N (diff_lt 100) - / 4)). nra.
  - pose proof (pow2_ge_0 (prob a b N N (diff_lt 100) - / 4)). nra.
Qed.

(** C47 *)
Theorem C47_root : forall ndtri junk fuel b target tol a, 0 < b -> 0 < target < 1 -> Rabs tol < 1 ->
  conditional_skellam_cdf_root ndtri junk fuel b target tol = Some (Ok a) ->
  (a = b \/ / 1000000 <= a) /\
  exists a' N M, (a' = b \/ / 1000000 <= a') /\ is_size (size_arg (ndtri tol) a' b) N /\
    is_size (- ndtri (/ 2 * tol) * sqrt b + b) M /\ Rabs (target - half_prob a b N M) <= Rabs tol.
Proof. intros ndtri junk fuel b target tol a Hb Ht Htol E. exact (conditional_ok ndtri junk fuel b target tol _ Hb Ht Htol E). Qed.
Print Assumptions C47_root.
(** It never reports non-convergence ... *)
Theorem C47_raises_only_ValueError : forall ndtri junk fuel b target tol x, 0 < b -> Rabs tol < 1 ->
  conditional_skellam_cdf_root ndtri junk fuel b target tol = Some (Raise x) -> x = ValueError.
Proof.
  intros ndtri junk fuel b target tol x Hb Htol E.
  destruct (Rle_dec target 0) as [H|H]; [|destruct (Rle_dec 1 target) as [H'|H']].
  - unfold conditional_skellam_cdf_root in E. destruct (Rle_dec target 0); [congruence|lra].
  - unfold conditional_skellam_cdf_root in E. destruct (Rle_dec target 0); [congruence|]. destruct (Rle_dec 1 target); [congruence|lra].
  - exact (conditional_ok ndtri junk fuel b target tol _ Hb ltac:(lra) Htol E).
Qed.
Print Assumptions C47_raises_only_ValueError.
(** ... and, when the target is too small to be reached, it never stops (finding).
    For the real quantile function ndtri tol <= -2 holds for every tol <= 0.022. *)
Theorem C47_never_returns : forall ndtri junk b target tol,
  0 < b -> 0 < target -> 0 < tol -> ndtri tol <= -2 -> ndtri (/ 2 * tol) <= 0 -> target + tol < 3 / 8 * exp (- b) ->
  forall fuel, conditional_skellam_cdf_root ndtri junk fuel b target tol = None.
Proof. exact conditional_never_returns. Qed.
Print Assumptions C47_never_returns.
Example C47_nonvacuous : forall fuel, conditional_skellam_cdf_root (fun _ => -2) 0 fuel 1 (/ 10) (/ 100) = None.
Proof.
  apply C47_never_returns; try lra. rewrite exp_Ropp. pose proof exp_le_3. pose proof (exp_pos 1).
  assert (/ 3 <= / exp 1) by (apply Rinv_le_contravar; lra). lra.
Qed.
