From Coq Require Import Reals List ZArith Lra Lia.
From Coquelicot Require Import Coquelicot.
From Verif Require Import Prelude AnalyticSpec SkellamModel SkellamSpec SkellamProofs SkellamRoots.
Import List ListNotations.
Local Open Scope R_scope.

(** ---- skellam_cdf_root ---- *)
Lemma norm2_sym x y x' y' : norm2 (x - x') (y - y') = norm2 (x' - x) (y' - y).
Proof. unfold norm2. f_equal. ring. Qed.
(** the distance between the (truncated) probabilities at (a, b) and the targets *)
Definition gap (a b : R) (n : Z) (t1 t2 : R) (N : nat) : R :=
  norm2 (prob a b N N (diff_lt n) - t1) (prob a b N N (diff_gt n) - t2).
Section Sroot.
Variables (ndtri : R -> R) (solve : (R * R) * (R * R) -> R * R -> res (R * R)) (t1 t2 tol : R) (n : Z).
Definition close (a b d : R) : Prop := exists N, is_size (size_arg (ndtri tol) a b) N /\ gap a b n t1 t2 N <= d.
Lemma pair_s_gap a b s1 s2 : pair_s ndtri a b n tol = Ok (s1, s2) -> close a b (norm2 (s1 - t1) (s2 - t2)).
Proof.
  unfold pair_s. destruct (skellam_cdf_pair ndtri a b n tol) as [[p q]|] eqn:E; cbn [rbind]; [|discriminate].
  apply skellam_cdf_pair_ok in E. destruct E as (N & HN & (da & db & -> & _) & (da' & db' & -> & _)).
  cbn [nth]. intros H. inversion H; subst. exists N. split; [exact HN|]. unfold gap. lra.
Qed.
Lemma sroot_inner_ok k : forall a b e st1 st2 sf na nb ne r,
  floor_ <= a -> floor_ <= b -> floor_ <= na -> floor_ <= nb -> close a b e -> (ne < e -> close na nb ne) ->
  sroot_inner ndtri k t1 t2 n tol a b e st1 st2 sf na nb ne = Ok r ->
  floor_ <= fst r /\ floor_ <= snd r /\ close (fst r) (snd r) e.
Proof.
  induction k as [|k IH]; intros a b e st1 st2 sf na nb ne r Ha Hb Hna Hnb Hc Hne; cbn [sroot_inner].
  - intros H; inversion H; subst. auto.
  - destruct (Rlt_dec ne e) as [Hlt|Hge].
    + intros H; inversion H; subst. cbn. repeat split; auto. destruct (Hne Hlt) as (N & HN & Hg). exists N. split; [exact HN|lra].
    + destruct (pair_s ndtri (Rmax (a + sf * / 2 * st1) floor_) (Rmax (b + sf * / 2 * st2) floor_) n tol) as [[s1 s2]|] eqn:E; cbn [rbind]; [|discriminate].
      apply IH; auto; try apply Rmax_r. intros _. now apply pair_s_gap.
Qed.
Lemma sroot_inner_raise k : forall a b e st1 st2 sf na nb ne x,
  sroot_inner ndtri k t1 t2 n tol a b e st1 st2 sf na nb ne = Raise x -> x = ValueError.
Proof.
  induction k as [|k IH]; intros a b e st1 st2 sf na nb ne x; cbn [sroot_inner]; [discriminate|].
  destruct (Rlt_dec ne e); [discriminate|].
  destruct (pair_s _ _ _ _ _) as [[s1 s2]|y] eqn:E; cbn [rbind]; [apply IH|].
  intros H; inversion H; subst. unfold pair_s, skellam_cdf_pair in E.
  destruct (tol2size _ _ _) as [z|y'] eqn:Et; cbn [rbind] in E.
  - destruct (skellam_frame _ _ _) as [fr|y'] eqn:Ef; cbn [rbind] in E; [discriminate|]. apply frame_raise in Ef. congruence.
  - apply tol2size_raise in Et. congruence.
Qed.
Lemma pair_raise a b x : skellam_cdf_pair ndtri a b n tol = Raise x -> x = ValueError.
Proof.
  unfold skellam_cdf_pair. destruct (tol2size _ _ _) as [z|y'] eqn:Et; cbn [rbind].
  - destruct (skellam_frame _ _ _) as [fr|y'] eqn:Ef; cbn [rbind]; [discriminate|]. apply frame_raise in Ef. congruence.
  - apply tol2size_raise in Et. congruence.
Qed.
Lemma sroot_loop_ok : forall fuel a b e count, floor_ <= a -> floor_ <= b -> (Rabs tol < e \/ close a b e) ->
  (51 <= fuel + count)%nat -> (count <= 50)%nat ->
  exists r, sroot_loop ndtri solve fuel t1 t2 n tol a b e count = Some r /\
  match r with
  | Ok (a', b', it) => floor_ <= a' /\ floor_ <= b' /\ (it <= 50)%nat /\ close a' b' (Rabs tol)
  | Raise x => x = ValueError \/ x = TypeError \/ exists M v, solve M v = Raise x
  end.
Proof.
  induction fuel as [|fuel IH]; intros a b e count Ha Hb He Hf Hc; [lia|]. cbn [sroot_loop].
  destruct (Rlt_dec (Rabs tol) e) as [Hlt|Hge].
  - destruct (skellam_cdf_pair ndtri a b n tol) as [[p q]|x] eqn:E; cbn [rbind].
    + assert (Hcl : close a b (norm2 (nth 0 p 0 - t1) (nth 0 q 0 - t2))).
      { apply pair_s_gap. unfold pair_s. now rewrite E. }
      destruct (solve _ _) as [[st1 st2]|x] eqn:Es; cbn [rbind].
      * destruct (sroot_inner _ _ _ _ _ _ _ _ _ _ _ _ _ _ _) as [[a' b']|x] eqn:Ei; cbn [rbind].
        -- destruct (50 <? S count)%nat eqn:Ec.
           ++ eexists. split; [reflexivity|]. cbn. auto.
           ++ apply Nat.ltb_ge in Ec. apply sroot_inner_ok in Ei; auto; try apply Rmax_r.
              ** destruct Ei as (H1 & H2 & H3). cbn [fst snd] in *. apply IH; auto; lia.
              ** rewrite norm2_sym. exact Hcl.
              ** intros Hx. exfalso. rewrite (norm2_sym t1) in Hx. lra.
        -- apply sroot_inner_raise in Ei. eexists. split; [reflexivity|]. cbn. auto.
      * eexists. split; [reflexivity|]. cbn. right. right. eauto.
    + apply pair_raise in E. eexists. split; [reflexivity|]. cbn. auto.
  - eexists. split; [reflexivity|]. cbn. repeat split; auto. destruct He as [He|(N & HN & Hg)]; [lra|].
    exists N. split; [exact HN|lra].
Qed.
End Sroot.
Theorem skellam_cdf_root_ok ndtri solve fuel t1 t2 n tol :
  0 < t1 -> 0 < t2 -> t1 + t2 < 1 -> Rabs tol < 1 -> (51 <= fuel)%nat ->
  exists r, skellam_cdf_root ndtri solve fuel t1 t2 n tol = Some r /\
  match r with
  | Ok (a, b, it) => floor_ <= a /\ floor_ <= b /\ (it <= 50)%nat /\ close ndtri t1 t2 tol n a b (Rabs tol)
  | Raise x => x = ValueError \/ x = TypeError \/ exists M v, solve M v = Raise x
  end.
Proof.
  intros H1 H2 H3 Ht Hf. unfold skellam_cdf_root. destruct (Rle_dec 1 (t1 + t2)); [lra|].
  destruct (Rle_dec (Rmin t1 t2) 0) as [Hm|_].
  - exfalso. destruct (Rle_dec t1 t2); [rewrite Rmin_left in Hm by lra; lra|rewrite Rmin_right in Hm by lra; lra].
  - apply sroot_loop_ok; try apply Rmax_r; try lia. now left.
Qed.
(** Non-convergence: if the solver always answers with a null step nothing is ever
    accepted, and the caller sees TypeError. *)
Lemma sroot_inner_null ndtri k t1 t2 n tol a b e : floor_ <= a -> floor_ <= b ->
  (forall s1 s2, pair_s ndtri a b n tol = Ok (s1, s2) -> norm2 (s1 - t1) (s2 - t2) = e) ->
  (exists s, pair_s ndtri a b n tol = Ok s) ->
  forall sf, sroot_inner ndtri k t1 t2 n tol a b e 0 0 sf (Rmax (a + 1 * 0) floor_) (Rmax (b + 1 * 0) floor_) e = Ok (a, b) /\
             sroot_inner ndtri k t1 t2 n tol a b e 0 0 sf a b e = Ok (a, b).
Proof.
  intros Ha Hb He [[s1 s2] Hs]. induction k as [|k IH]; intros sf; cbn [sroot_inner]; [auto|].
  assert (Ea : forall c, Rmax (a + c * 0) floor_ = a) by (intros; rewrite Rmult_0_r, Rplus_0_r; now apply Rmax_left).
  assert (Eb : forall c, Rmax (b + c * 0) floor_ = b) by (intros; rewrite Rmult_0_r, Rplus_0_r; now apply Rmax_left).
  destruct (Rlt_dec e e); [lra|]. rewrite !Ea, !Eb, Hs. cbn [rbind]. rewrite (He s1 s2 Hs).
  split; apply IH.
Qed.
Theorem sroot_stuck ndtri t1 t2 n tol : forall fuel a b e count,
  floor_ <= a -> floor_ <= b -> 0 <= size_arg (ndtri tol) a b -> 0 < tol < 1 ->
  (forall N, is_size (size_arg (ndtri tol) a b) N -> Rabs tol < gap a b n t1 t2 N) -> Rabs tol < e ->
  (51 <= fuel + count)%nat -> (count <= 50)%nat ->
  sroot_loop ndtri (fun _ _ => Ok (0, 0)) fuel t1 t2 n tol a b e count = Some (Raise TypeError).
Proof.
  induction fuel as [|fuel IH]; intros a b e count Ha Hb Hs Ht Hg He Hf Hc; [lia|]. cbn [sroot_loop].
  destruct (Rlt_dec (Rabs tol) e); [|lra].
  destruct (skellam_cdf_pair_total ndtri a b n tol Ht Hs) as ([p q] & E). rewrite E. cbn [rbind].
  assert (Hps : pair_s ndtri a b n tol = Ok (nth 0 p 0, nth 0 q 0)) by (unfold pair_s; now rewrite E).
  rewrite (norm2_sym t1).
  rewrite (proj1 (sroot_inner_null ndtri 10 t1 t2 n tol a b _ Ha Hb
      ltac:(intros s1 s2 Hp; rewrite Hps in Hp; inversion Hp; reflexivity) ltac:(eauto) 1)). cbn [rbind].
  destruct (50 <? S count)%nat eqn:Ec; [reflexivity|]. apply Nat.ltb_ge in Ec. apply IH; auto; try lia.
  apply skellam_cdf_pair_ok in E. destruct E as (N & HN & (da & db & -> & _) & (da' & db' & -> & _)). cbn [nth]. now apply Hg.
Qed.

(** ---- conditional_skellam_cdf_root ---- *)
Lemma half_sum_eq a b N M : half_sum (outer (map (pmf a) (seq 0 N)) (map (pmf b) (seq 0 M))) = half_prob a b N M.
Proof.
  unfold half_sum, half_prob, prob. rewrite !mask_sum_outer. f_equal; [|f_equal].
  - apply Rsum_ext; intros i _; apply Rsum_ext; intros j _.
    replace (Nat.ltb j i) with (Z.of_nat j - Z.of_nat i <? 0)%Z; [reflexivity|].
    destruct (Nat.ltb_spec j i), (Z.ltb_spec (Z.of_nat j - Z.of_nat i) 0); try reflexivity; lia.
  - apply Rsum_ext; intros i _; apply Rsum_ext; intros j _.
    replace (Nat.eqb i j) with (Z.of_nat j - Z.of_nat i =? 0)%Z; [reflexivity|].
    destruct (Nat.eqb_spec i j), (Z.eqb_spec (Z.of_nat j - Z.of_nat i) 0); try reflexivity; lia.
Qed.
Lemma half_prob_range a b N M : 0 <= a -> 0 <= b -> 0 <= half_prob a b N M <= 1.
Proof.
  intros Ha Hb. unfold half_prob.
  pose proof (prob_nonneg a b (fun x y => Nat.ltb y x) N M Ha Hb). pose proof (prob_nonneg a b (fun x y => Nat.eqb x y) N M Ha Hb).
  split; [lra|]. assert (prob a b N M (fun x y => Nat.ltb y x) + prob a b N M (fun x y => Nat.eqb x y) <= 1); [|lra].
  assert (prob a b N M (fun x y => Nat.ltb y x) + prob a b N M (fun x y => Nat.eqb x y) = prob a b N M (fun x y => Nat.leb y x)).
  { unfold prob. rewrite <- Rsum_plus. apply Rsum_ext; intros i _. rewrite <- Rsum_plus. apply Rsum_ext; intros j _.
    destruct (Nat.ltb_spec j i), (Nat.eqb_spec i j), (Nat.leb_spec j i); try lia; lra. }
  rewrite H1. now apply prob_le_1.
Qed.
Section Croot.
Variables (ndtri : R -> R) (junk b target tol : R) (M : nat).
Hypothesis Hb : 0 < b.
Let pb := map (pmf b) (seq 0 M).
Definition rate_ok (a : R) : Prop := a = b \/ floor_ <= a.
Lemma rate_pos a : rate_ok a -> 0 < a.
Proof. intros [->|H]; [exact Hb|]. unfold floor_ in H. lra. Qed.
Lemma croot_inner_ok N k : forall a e step sf na ne, rate_ok a -> floor_ <= na ->
  (ne < e -> ne = Rabs (target - half_prob na b (S N) M)) ->
  exists r, croot_inner k target (S N) pb a e step sf na ne = Ok r /\ rate_ok r /\
  (r = a \/ Rabs (target - half_prob r b (S N) M) < e).
Proof.
  induction k as [|k IH]; intros a e step sf na ne Ha Hna Hne; cbn [croot_inner].
  - exists a; auto.
  - destruct (Rlt_dec ne e) as [Hlt|Hge].
    + exists na. split; [reflexivity|]. split; [now right|]. right. rewrite <- Hne by exact Hlt. exact Hlt.
    + rewrite poisson_vector_eq. cbn [rbind]. unfold pb. rewrite half_sum_eq. apply IH; auto. apply Rmax_r.
Qed.
Definition near (a d : R) : Prop := exists a' N, rate_ok a' /\ is_size (size_arg (ndtri tol) a' b) N /\
  Rabs (target - half_prob a b N M) <= d.
Lemma croot_loop_ok : forall fuel a e count r, rate_ok a -> (Rabs tol < e \/ near a e) -> (count <= 50)%nat ->
  croot_loop ndtri junk fuel b target tol pb a e count = Some r ->
  match r with Ok a' => rate_ok a' /\ near a' (Rabs tol) | Raise x => x = ValueError end.
Proof.
  induction fuel as [|fuel IH]; intros a e count r Ha He Hc; cbn [croot_loop]; destruct (Rlt_dec (Rabs tol) e) as [Hlt|Hge]; try discriminate.
  - intros H; inversion H; subst. split; [exact Ha|]. destruct He as [He|(a' & N & H1 & H2 & H3)]; [lra|]. exists a', N. repeat split; auto; lra.
  - destruct (tol2size ndtri tol [a; b]) as [z|x] eqn:Et; cbn [rbind].
    + pose proof (tol2size_ok _ _ _ _ Et) as Htol. rewrite tol2size_cases in Et by exact Htol. inversion Et; subst z; clear Et.
      set (z := (Rtrunc (size_arg (ndtri tol) a b) + 1)%Z).
      destruct (Z.to_nat z) as [|N] eqn:Ez; [cbn [poisson_vector rbind]; intros H; inversion H; subst; reflexivity|].
      rewrite poisson_vector_eq. cbn [rbind]. 
      assert (Hh : half_sum (outer (map (pmf a) (seq 0 (S N))) pb) = half_prob a b (S N) M) by apply half_sum_eq. rewrite Hh.
      match goal with |- context [croot_inner 10 target (S N) pb a ?e0 ?st 1 ?na ?ne] =>
        destruct (croot_inner_ok N 10 a e0 st 1 na ne Ha (Rmax_r _ _) ltac:(intros; lra)) as (r' & Er & Hr & Hd); rewrite Er end.
      cbn [rbind].
      destruct (50 <? count)%nat eqn:Ec; [apply Nat.ltb_lt in Ec; lia|].
      apply IH; auto. right. exists a, (S N). split; [exact Ha|]. split.
      * rewrite <- Ez. apply Rtrunc_size. fold z. lia.
      * destruct Hd as [->|Hd]; lra.
    + apply tol2size_raise in Et. intros H; inversion H. exact Et.
  - intros H; inversion H; subst. split; [exact Ha|]. destruct He as [He|(a' & N & H1 & H2 & H3)]; [lra|]. exists a', N. repeat split; auto; lra.
Qed.
(** every e the loop ever computes is a gap at a rate with its own size *)
Lemma croot_never : 0 < tol < 1 -> ndtri tol <= 0 ->
  (forall a N, rate_ok a -> is_size (size_arg (ndtri tol) a b) N -> Rabs tol < Rabs (target - half_prob a b N M)) ->
  forall fuel a e count, rate_ok a -> Rabs tol < e -> (count <= 50)%nat ->
  croot_loop ndtri junk fuel b target tol pb a e count = None.
Proof.
  intros Htol Hq Hn. induction fuel as [|fuel IH]; intros a e count Ha He Hc; cbn [croot_loop]; destruct (Rlt_dec (Rabs tol) e) as [Hlt|Hge]; try lra; try reflexivity.
  rewrite tol2size_cases by exact Htol. cbn [rbind].
  assert (Hs : 0 <= size_arg (ndtri tol) a b).
  { unfold size_arg. pose proof (rate_pos a Ha). pose proof (sqrt_pos a). pose proof (sqrt_pos b). nra. }
  apply Rtrunc_nonneg in Hs. set (z := (Rtrunc (size_arg (ndtri tol) a b) + 1)%Z) in *.
  destruct (Z.to_nat z) as [|N] eqn:Ez; [lia|].
  rewrite poisson_vector_eq. cbn [rbind].
  assert (Hh : half_sum (outer (map (pmf a) (seq 0 (S N))) pb) = half_prob a b (S N) M) by apply half_sum_eq. rewrite Hh.
  match goal with |- context [croot_inner 10 target (S N) pb a ?e0 ?st 1 ?na ?ne] =>
    destruct (croot_inner_ok N 10 a e0 st 1 na ne Ha (Rmax_r _ _) ltac:(intros; lra)) as (r' & Er & Hr & Hd); rewrite Er end.
  cbn [rbind]. destruct (50 <? count)%nat eqn:Ec; [apply Nat.ltb_lt in Ec; lia|]. apply IH; auto.
  apply Hn; [exact Ha|]. rewrite <- Ez. apply Rtrunc_size. fold z. lia.
Qed.
End Croot.
Lemma tol2size1 ndtri tol b : 0 < tol < 1 -> tol2size ndtri tol [b] = Ok (Rtrunc (- ndtri tol * sqrt b + b) + 1)%Z.
Proof.
  intros H. unfold tol2size. destruct (Rlt_dec 0 tol); [|lra]. destruct (Rlt_dec tol 1); [|lra].
  cbn. rewrite !Rplus_0_r. reflexivity.
Qed.
Theorem conditional_ok ndtri junk fuel b target tol r : 0 < b -> 0 < target < 1 -> Rabs tol < 1 ->
  conditional_skellam_cdf_root ndtri junk fuel b target tol = Some r ->
  match r with
  | Ok a => (a = b \/ floor_ <= a) /\
      exists a' N M, (a' = b \/ floor_ <= a') /\ is_size (size_arg (ndtri tol) a' b) N /\
        is_size (- ndtri (/ 2 * tol) * sqrt b + b) M /\ Rabs (target - half_prob a b N M) <= Rabs tol
  | Raise x => x = ValueError
  end.
Proof.
  intros Hb Ht Htol. unfold conditional_skellam_cdf_root. destruct (Rle_dec target 0); [lra|]. destruct (Rle_dec 1 target); [lra|].
  destruct (tol2size ndtri (/ 2 * tol) [b]) as [z|x] eqn:Et; cbn [rbind].
  - pose proof (tol2size_ok _ _ _ _ Et) as Hh. rewrite tol2size1 in Et by exact Hh. inversion Et; subst z; clear Et.
    set (z := (Rtrunc (- ndtri (/ 2 * tol)%R * sqrt b + b) + 1)%Z).
    destruct (Z.to_nat z) as [|M] eqn:Ez; [cbn; intros H; inversion H; reflexivity|].
    rewrite poisson_vector_eq. intros H. apply croot_loop_ok in H; auto; try lia; [|now left].
    destruct r as [a|x]; [|exact H]. destruct H as (Ha & a' & N & Ha' & HN & Hg). split; [exact Ha|].
    exists a', N, (S M). repeat split; auto. rewrite <- Ez. apply Rtrunc_size. fold z. lia.
  - apply tol2size_raise in Et. intros H; inversion H. exact Et.
Qed.
Lemma Rsum_first f N : (forall u, 0 <= f u) -> f 0%nat <= Rsum f (seq 0 (S N)).
Proof.
  intros H. cbn [seq]. rewrite Rsum_cons. assert (0 <= Rsum f (seq 1 N)) by (apply Rsum_nonneg; auto). lra.
Qed.
Lemma half_prob_lower a b N M : 0 <= a -> 0 <= b -> / 2 * pmf b 0 * pcdf a N <= half_prob a b N (S M).
Proof.
  intros Ha Hb. unfold half_prob, prob, pcdf. rewrite <- (Rsum_scal (/ 2) (fun i => Rsum _ _)), <- Rsum_plus, <- (Rsum_scal (/ 2 * pmf b 0)).
  apply Rsum_le. intros i _. rewrite <- Rsum_scal, <- Rsum_plus.
  set (f := fun j => (if (j <? i)%nat then pmf a i * pmf b j else 0) + / 2 * (if (i =? j)%nat then pmf a i * pmf b j else 0)).
  eapply Rle_trans; [|apply (Rsum_first f)].
  - unfold f. pose proof (Rmult_le_pos _ _ (pmf_nonneg a i Ha) (pmf_nonneg b 0 Hb)).
    destruct (Nat.ltb_spec 0 i), (Nat.eqb_spec i 0); try lia; nra.
  - intros j. unfold f. pose proof (Rmult_le_pos _ _ (pmf_nonneg a i Ha) (pmf_nonneg b j Hb)).
    destruct (j <? i)%nat, (i =? j)%nat; lra.
Qed.
Theorem conditional_never_returns ndtri junk b target tol :
  0 < b -> 0 < target -> 0 < tol -> ndtri tol <= -2 -> ndtri (/ 2 * tol) <= 0 -> target + tol < 3 / 8 * exp (- b) ->
  forall fuel, conditional_skellam_cdf_root ndtri junk fuel b target tol = None.
Proof.
  intros Hb Ht Htol Hq Hq2 Hsmall fuel.
  assert (He : exp (- b) < 1) by (rewrite <- exp_0; apply exp_increasing; lra).
  unfold conditional_skellam_cdf_root. destruct (Rle_dec target 0); [lra|]. destruct (Rle_dec 1 target); [lra|].
  rewrite tol2size1 by lra. cbn [rbind].
  assert (Hs : 0 <= - ndtri (/ 2 * tol) * sqrt b + b) by (pose proof (sqrt_pos b); nra).
  apply Rtrunc_nonneg in Hs. destruct (Z.to_nat _) as [|M] eqn:Ez; [lia|].
  rewrite poisson_vector_eq. apply croot_never; auto; try lra; try lia.
  - intros a' N Ha' HN. assert (0 < a') by now apply (rate_pos b).
    destruct (tail_bound (ndtri tol) a' b N) as [HT _]; try lra; [exact HN|].
    assert (Hq4 : 1 / ndtri tol ^ 2 <= 1 / 4).
    { apply Rmult_le_compat_l; [lra|]. apply Rinv_le_contravar; [lra|]. nra. }
    pose proof (half_prob_lower a' b N M ltac:(lra) ltac:(lra)) as HL.
    assert (pmf b 0 = exp (- b)) by (unfold pmf; cbn; field). rewrite H0 in HL. pose proof (exp_pos (- b)).
    assert (3 / 8 * exp (- b) <= half_prob a' b N (S M)) by nra.
    rewrite (Rabs_pos_eq tol) by lra. rewrite Rabs_left1; lra.
  - now left.
  - rewrite Rabs_pos_eq; lra.
Qed.
