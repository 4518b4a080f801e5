From Coq Require Import Reals List ZArith Lra Lia.
From Coquelicot Require Import Coquelicot.
From Verif Require Import Prelude AnalyticSpec SkellamModel SkellamSpec.
Import List ListNotations.
Local Open Scope R_scope.

Lemma lsum_map {A} (f : A -> R) l : lsum (map f l) = Rsum f l.
Proof. reflexivity. Qed.
Definition dpmf (a : R) (k : nat) : R := match k with O => - exp (- a) | S u => pmf a u - pmf a (S u) end.
Lemma D_expm a : is_derive (fun s => exp (- s)) a (- exp (- a)).
Proof. auto_derive; [exact I|ring]. Qed.
Lemma D_pow_fact a k : is_derive (fun s => s ^ k / INR (fact k)) a (match k with O => 0 | S u => a ^ u / INR (fact u) end).
Proof.
  destruct k as [|u].
  - cbn. auto_derive; [exact I|ring].
  - pose proof (INR_fact_neq_0 u). pose proof (INR_fact_neq_0 (S u)).
    eapply is_derive_eq.
    + unfold Rdiv. apply (is_derive_ext (fun s => (/ INR (fact (S u))) * s ^ (S u))); [intros; match goal with |- ?a = ?b => change (@eq R a b) end; ring|]. apply D_scal.
      apply (is_derive_pow (fun s : R => s) (S u) a 1). apply D_id.
    + change (match u with 0%nat => 1 | S _ => INR u + 1 end) with (INR (S u)). rewrite Nat.pred_succ.
      rewrite (fact_simpl u), mult_INR. field. split; [assumption|apply not_0_INR; lia].
Qed.
Lemma D_pmf a k : is_derive (fun s => pmf s k) a (dpmf a k).
Proof.
  unfold pmf. eapply is_derive_eq; [apply D_mult; [apply D_expm|apply D_pow_fact]|].
  destruct k; unfold dpmf, pmf; cbn [pow fact INR]; [field|ring].
Qed.
Lemma removelast_map_seq {A} (f : nat -> A) s m : removelast (map f (seq s (S m))) = map f (seq s m).
Proof. rewrite seq_S, map_app. cbn. now rewrite removelast_last. Qed.
Lemma last_map_seq {A} (f : nat -> A) s m d : last (map f (seq s (S m))) d = f (s + m)%nat.
Proof. rewrite seq_S, map_app. cbn. now rewrite last_last. Qed.
Lemma zip2_map {A} (h : R -> R -> R) (f g : A -> R) l : zip2 h (map f l) (map g l) = map (fun x => h (f x) (g x)) l.
Proof. unfold zip2. induction l; cbn; [reflexivity|now rewrite IHl]. Qed.
Theorem poisson_vector_eq a m :
  poisson_vector a (S m) = Ok (map (pmf a) (seq 0 (S m)), map (dpmf a) (seq 0 (S m))).
Proof.
  unfold poisson_vector. set (g := fun u => a ^ u / INR (fact u)).
  rewrite removelast_map_seq. do 2 f_equal.
  - rewrite map_map. reflexivity.
  - change (tl (map g (seq 0 (S m)))) with (map g (seq 1 m)). rewrite <- seq_shift, map_map, zip2_map.
    cbn [seq map]. f_equal; [unfold dpmf; ring|]. rewrite <- seq_shift, !map_map. apply map_ext. intros u. unfold dpmf, pmf, g. ring.
Qed.
Lemma Rsum_dpmf a n : Rsum (dpmf a) (seq 0 (S n)) = - pmf a n.
Proof.
  induction n as [|n IH].
  - cbn [seq]. rewrite Rsum_cons, Rsum_nil. unfold dpmf, pmf. cbn [pow fact INR]. field.
  - rewrite seq_S, Rsum_app, IH, Rsum_cons, Rsum_nil. rewrite Nat.add_0_l. cbn [dpmf]. lra.
Qed.
Theorem poisson_cdf_eq a n : poisson_cdf a n = Ok (pcdf a (S n), - pmf a n).
Proof.
  unfold poisson_cdf. rewrite Nat.add_1_r, poisson_vector_eq. cbn [rbind]. rewrite !lsum_map. now rewrite Rsum_dpmf.
Qed.
Lemma D_pcdf a N : is_derive (fun s => pcdf s N) a (Rsum (dpmf a) (seq 0 N)).
Proof. unfold pcdf. apply (is_derive_Rsum (fun s u => pmf s u)). intros; apply D_pmf. Qed.
Lemma pcdf_S a N : pcdf a (S N) = pcdf a N + pmf a N.
Proof. unfold pcdf. rewrite seq_S, Rsum_app, Rsum_cons, Rsum_nil. rewrite Nat.add_0_l. lra. Qed.
Theorem poisson_mid_cdf_eq a n : exists d, poisson_mid_cdf a n = Ok (pcdf a n + / 2 * pmf a n, d) /\
  is_derive (fun s => pcdf s n + / 2 * pmf s n) a d.
Proof.
  unfold poisson_mid_cdf. rewrite Nat.add_1_r, poisson_vector_eq. cbn [rbind].
  rewrite !removelast_map_seq, !last_map_seq, !lsum_map. eexists. split; [reflexivity|].
  apply D_plus; [apply D_pcdf|]. apply D_scal. apply D_pmf.
Qed.

(** ---- facts about the Poisson distribution ---- *)
Lemma pmf_pos a k : 0 < a -> 0 < pmf a k.
Proof.
  intros H. unfold pmf. apply Rmult_lt_0_compat; [apply exp_pos|]. apply Rdiv_lt_0_compat; [now apply pow_lt|apply INR_fact_lt_0].
Qed.
Lemma pmf_nonneg a k : 0 <= a -> 0 <= pmf a k.
Proof.
  intros H. unfold pmf. apply Rmult_le_pos; [apply Rlt_le, exp_pos|]. apply Rmult_le_pos; [now apply pow_le|].
  apply Rlt_le, Rinv_0_lt_compat, INR_fact_lt_0.
Qed.
Lemma pmf_S a k : INR (S k) * pmf a (S k) = a * pmf a k.
Proof.
  unfold pmf. rewrite fact_simpl, mult_INR. cbn [pow]. pose proof (INR_fact_neq_0 k). field.
  split; [assumption|apply not_0_INR; lia].
Qed.
Lemma pmf_0 k : pmf 0 k = if Nat.eqb k 0 then 1 else 0.
Proof. unfold pmf. rewrite Ropp_0, exp_0. destruct k; cbn [Nat.eqb pow fact]; [cbn; field|]. unfold Rdiv; ring. Qed.
Lemma is_series_pmf a : is_series (pmf a) 1.
Proof.
  assert (S : is_series (fun k => a ^ k / INR (fact k)) (exp a)).
  { pose proof (is_exp_Reals a) as H. unfold is_pseries in H.
    eapply is_series_ext; [|exact H]. intros n. rewrite pow_n_pow. reflexivity. }
  pose proof (is_series_scal (K := R_AbsRing) (V := R_NormedModule) (exp (- a)) _ _ S) as H.
  assert (E : scal (K := R_AbsRing) (V := R_NormedModule) (exp (- a)) (exp a) = 1).
  { change (exp (- a) * exp a = 1). rewrite <- exp_plus, Rplus_opp_l. apply exp_0. }
  rewrite E in H. exact H.
Qed.
Lemma pcdf_sum_n a n : sum_n (pmf a) n = pcdf a (S n).
Proof.
  induction n as [|n IH]; [rewrite sum_O; unfold pcdf; cbn [seq]; rewrite Rsum_cons, Rsum_nil; cbn; lra|].
  rewrite sum_Sn, IH, (pcdf_S a (S n)). reflexivity.
Qed.
Lemma lim_pcdf a : is_lim_seq (pcdf a) 1.
Proof.
  apply is_lim_seq_incr_1. apply (is_lim_seq_ext (sum_n (pmf a))); [apply pcdf_sum_n|].
  exact (is_series_pmf a).
Qed.
Lemma lim_pmf a : is_lim_seq (pmf a) 0.
Proof. apply ex_series_lim_0. exists 1. apply is_series_pmf. Qed.
Lemma pcdf_mono a N M : 0 <= a -> (N <= M)%nat -> pcdf a N <= pcdf a M.
Proof.
  intros Ha. induction 1; [lra|]. rewrite pcdf_S. pose proof (pmf_nonneg a m Ha). lra.
Qed.
Lemma pcdf_nonneg a N : 0 <= a -> 0 <= pcdf a N.
Proof. intros Ha. unfold pcdf. apply Rsum_nonneg. intros; now apply pmf_nonneg. Qed.
Lemma lim_ge (u : nat -> R) (l : R) N x : is_lim_seq u l -> (forall n, (N <= n)%nat -> x <= u n) -> x <= l.
Proof.
  intros H Hx. assert (Rbar_le x l); [|assumption].
  apply (is_lim_seq_le_loc (fun _ => x) u); [exists N; exact Hx|apply is_lim_seq_const|exact H].
Qed.
Lemma lim_le (u : nat -> R) (l : R) N x : is_lim_seq u l -> (forall n, (N <= n)%nat -> u n <= x) -> l <= x.
Proof.
  intros H Hx. assert (Rbar_le l x); [|assumption].
  apply (is_lim_seq_le_loc u (fun _ => x)); [exists N; exact Hx|exact H|apply is_lim_seq_const].
Qed.
Lemma pcdf_le_1 a N : 0 <= a -> pcdf a N <= 1.
Proof. intros Ha. apply (lim_ge _ _ N _ (lim_pcdf a)). intros; now apply pcdf_mono. Qed.
Lemma pcdf_lt_1 a N : 0 < a -> pcdf a N < 1.
Proof. intros Ha. pose proof (pcdf_le_1 a (S N) ltac:(lra)). rewrite pcdf_S in H. pose proof (pmf_pos a N Ha). lra. Qed.
Lemma pcdf_pos a N : 0 < a -> 0 < pcdf a (S N).
Proof. intros Ha. rewrite pcdf_S. pose proof (pcdf_nonneg a N ltac:(lra)). pose proof (pmf_pos a N Ha). lra. Qed.
(** strictly decreasing in the rate *)
Lemma pcdf_decreasing n a a' : 0 < a -> a < a' -> pcdf a' (S n) < pcdf a (S n).
Proof.
  intros Ha Hlt.
  destruct (MVT_gen (fun s => pcdf s (S n)) a a' (fun s => - pmf s n)) as (c & Hc & E).
  - intros x Hx. rewrite <- Rsum_dpmf. apply D_pcdf.
  - intros x Hx. apply derivable_continuous_pt. exists (Rsum (dpmf x) (seq 0 (S n))). apply is_derive_Reals, D_pcdf.
  - rewrite Rmin_left, Rmax_right in Hc by lra. pose proof (pmf_pos c n ltac:(lra)). nra.
Qed.
(** Chebyshev *)
Lemma moment a M : Rsum (fun u => (INR u - a) ^ 2 * pmf a u) (seq 0 (S (S M)))
  = a * pcdf a (S M) + a ^ 2 * (pmf a (S M) - pmf a M).
Proof.
  induction M as [|M IH].
  - cbn [seq]. rewrite !Rsum_cons, Rsum_nil. unfold pcdf. cbn [seq]. rewrite Rsum_cons, Rsum_nil.
    pose proof (pmf_S a 0) as E. cbn [INR] in *. replace (pmf a 1) with (a * pmf a 0) by lra. ring.
  - rewrite seq_S, Rsum_app, IH, Rsum_cons, Rsum_nil. rewrite (pcdf_S a (S M)), Nat.add_0_l.
    pose proof (pmf_S a M) as E1. pose proof (pmf_S a (S M)) as E2. rewrite !S_INR in *.
    set (p0 := pmf a M) in *. set (p1 := pmf a (S M)) in *. set (p2 := pmf a (S (S M))) in *. set (m := INR M) in *.
    assert ((m + 1 + 1) * ((m + 1 + 1) * p2) = a * ((m + 1) * p1) + a * p1) by (rewrite E2; ring).
    assert (E3 : (m + 1 + 1) * (m + 1 + 1) * p2 = a * (a * p0) + a * p1) by (rewrite <- E1; lra).
    replace ((m + 1 + 1 - a) ^ 2 * p2) with ((m + 1 + 1) * (m + 1 + 1) * p2 - 2 * a * ((m + 1 + 1) * p2) + a ^ 2 * p2) by ring.
    rewrite E3, E2. ring.
Qed.
Lemma moment_le a M : 0 <= a -> Rsum (fun u => (INR u - a) ^ 2 * pmf a u) (seq 0 M) <= a.
Proof.
  intros Ha. set (f := fun u => (INR u - a) ^ 2 * pmf a u).
  assert (Hf : forall u, 0 <= f u) by (intros u; unfold f; apply Rmult_le_pos; [apply pow2_ge_0|now apply pmf_nonneg]).
  assert (Hm : forall N N', (N <= N')%nat -> Rsum f (seq 0 N) <= Rsum f (seq 0 N')).
  { intros N N'. induction 1; [lra|]. rewrite seq_S, Rsum_app, Rsum_cons, Rsum_nil. pose proof (Hf (0 + m)%nat). lra. }
  assert (L : is_lim_seq (fun N => Rsum f (seq 0 (S (S N)))) a).
  { apply (is_lim_seq_ext (fun N => a * pcdf a (S N) + a ^ 2 * (pmf a (S N) - pmf a N))).
    - intros; symmetry; apply moment.
    - replace (Finite a) with (Rbar_plus (Rbar_mult a 1) (Rbar_mult (a ^ 2) (0 - 0))) by (cbn; f_equal; ring).
      apply is_lim_seq_plus'; apply (is_lim_seq_scal_l _ _ (Finite _)).
      + apply -> is_lim_seq_incr_1. apply lim_pcdf.
      + apply is_lim_seq_minus'; [apply -> is_lim_seq_incr_1|]; apply lim_pmf. }
  apply (lim_ge _ _ M _ L). intros n Hn. apply Hm. lia.
Qed.
Lemma chebyshev a N : 0 <= a -> a < INR N -> 1 - pcdf a N <= a / (INR N - a) ^ 2.
Proof.
  intros Ha HN. assert (Hp : 0 < (INR N - a) ^ 2) by (apply pow_lt; lra).
  assert (T : forall M, (N <= M)%nat -> pcdf a M - pcdf a N <= a / (INR N - a) ^ 2).
  { intros M HM. apply (Rmult_le_reg_l _ _ _ Hp). replace ((INR N - a) ^ 2 * (a / (INR N - a) ^ 2)) with a by (field; lra).
    eapply Rle_trans; [|apply (moment_le a M Ha)].
    replace M with (N + (M - N))%nat by lia. unfold pcdf. rewrite seq_app, !Rsum_app, Nat.add_0_l.
    assert (0 <= Rsum (fun u => (INR u - a) ^ 2 * pmf a u) (seq 0 N)).
    { apply Rsum_nonneg. intros; apply Rmult_le_pos; [apply pow2_ge_0|now apply pmf_nonneg]. }
    assert ((INR N - a) ^ 2 * Rsum (pmf a) (seq N (M - N)) <= Rsum (fun u => (INR u - a) ^ 2 * pmf a u) (seq N (M - N))).
    { rewrite <- Rsum_scal. apply Rsum_le. intros u Hu. apply in_seq in Hu. apply Rmult_le_compat_r; [now apply pmf_nonneg|].
      apply pow_incr. assert (INR N <= INR u) by (apply le_INR; lia). lra. }
    lra. }
  assert (1 <= pcdf a N + a / (INR N - a) ^ 2); [|lra].
  apply (lim_le _ _ N _ (lim_pcdf a)). intros M HM. specialize (T M HM). lra.
Qed.

(** ---- masks ---- *)
Lemma combine_seq_map {A} (f : nat -> A) s N : combine (seq s N) (map f (seq s N)) = map (fun i => (i, f i)) (seq s N).
Proof. revert s; induction N; intros; cbn; [reflexivity|now rewrite IHN]. Qed.
Lemma mask_sum_outer m f g N M :
  mask_sum m (outer (map f (seq 0 N)) (map g (seq 0 M))) =
  Rsum (fun i => Rsum (fun j => if m (Z.of_nat j - Z.of_nat i)%Z then f i * g j else 0) (seq 0 M)) (seq 0 N).
Proof.
  unfold mask_sum, outer. rewrite !map_map. rewrite map_length, seq_length, combine_seq_map, map_map, lsum_map.
  apply Rsum_ext. intros i _. cbn [fst snd]. rewrite !map_map, map_length, seq_length, combine_seq_map, map_map, lsum_map. reflexivity.
Qed.
