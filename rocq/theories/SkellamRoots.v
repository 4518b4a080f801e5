From Coq Require Import Reals List ZArith Lra Lia.
From Coquelicot Require Import Coquelicot.
From Verif Require Import Prelude AnalyticSpec SkellamModel SkellamSpec SkellamProofs.
Import List ListNotations.
Local Open Scope R_scope.

(** ---- sizes ---- *)
Lemma Rtrunc_size x : (0 < Rtrunc x + 1)%Z -> is_size x (Z.to_nat (Rtrunc x + 1)).
Proof.
  unfold Rtrunc. destruct (Rle_dec 0 x) as [H|H]; intros Hp.
  - left. rewrite INR_IZR_INZ, Z2Nat.id by lia. rewrite plus_IZR. destruct (base_Int_part x). lra.
  - right. assert (Z : Int_part (- x) = 0%Z).
    { destruct (base_Int_part (- x)) as [H1 H2].
      assert (-1 < IZR (Int_part (- x))) by lra. assert (E : (-1 < Int_part (- x))%Z) by now apply lt_IZR. lia. }
    rewrite Z in *. split; [reflexivity|]. destruct (base_Int_part (- x)). rewrite Z in *. lra.
Qed.
Lemma Rtrunc_nonneg x : 0 <= x -> (0 < Rtrunc x + 1)%Z.
Proof.
  intros H. unfold Rtrunc. destruct (Rle_dec 0 x); [|lra]. destruct (base_Int_part x).
  assert (-1 < IZR (Int_part x)) by lra. apply (lt_IZR (-1)) in H2. lia.
Qed.
Lemma is_size_unique x N N' : 0 <= x -> is_size x N -> is_size x N' -> N = N'.
Proof.
  assert (A : forall N, 0 <= x -> is_size x N -> INR N - 1 <= x < INR N).
  { intros M Hx [H|[-> H]]; [exact H|]. cbn. lra. }
  intros Hx H H'. apply A in H; [|exact Hx]. apply A in H'; [|exact Hx].
  assert (INR N < INR (S N')) by (rewrite S_INR; lra). assert (INR N' < INR (S N)) by (rewrite S_INR; lra).
  apply INR_lt in H0. apply INR_lt in H1. lia.
Qed.
Lemma tol2size_cases ndtri tol a b : 0 < tol < 1 ->
  tol2size ndtri tol [a; b] = Ok (Rtrunc (size_arg (ndtri tol) a b) + 1)%Z.
Proof.
  intros H. unfold tol2size, size_arg. destruct (Rlt_dec 0 tol); [|lra]. destruct (Rlt_dec tol 1); [|lra].
  cbn. rewrite !Rplus_0_r. reflexivity.
Qed.
Lemma tol2size_ok ndtri tol args z : tol2size ndtri tol args = Ok z -> 0 < tol < 1.
Proof. unfold tol2size. destruct (Rlt_dec 0 tol); [|discriminate]. destruct (Rlt_dec tol 1); [|discriminate]. intros; lra. Qed.
Lemma tol2size_raise ndtri tol args x : tol2size ndtri tol args = Raise x -> x = ValueError.
Proof. unfold tol2size. destruct (Rlt_dec 0 tol), (Rlt_dec tol 1); congruence. Qed.

(** ---- frames ---- *)
Lemma frame_eq a b m : skellam_frame a b (S m) =
  Ok [outer (map (pmf a) (seq 0 (S m))) (map (pmf b) (seq 0 (S m)));
      outer (map (dpmf a) (seq 0 (S m))) (map (pmf b) (seq 0 (S m)));
      outer (map (pmf a) (seq 0 (S m))) (map (dpmf b) (seq 0 (S m)))].
Proof. unfold skellam_frame. now rewrite !poisson_vector_eq. Qed.
Lemma frame_raise a b s x : skellam_frame a b s = Raise x -> x = ValueError.
Proof. destruct s; [cbn; congruence|]. now rewrite frame_eq. Qed.
Lemma frame_ok a b s fr : skellam_frame a b s = Ok fr -> exists m, s = S m.
Proof. destruct s; [discriminate|eauto]. Qed.
Definition gprob (f g : nat -> R) (N M : nat) (E : nat -> nat -> bool) : R :=
  Rsum (fun i => Rsum (fun j => if E i j then f i * g j else 0) (seq 0 M)) (seq 0 N).
Lemma D_prob_a a b N M E : is_derive (fun s => prob s b N M E) a (gprob (dpmf a) (pmf b) N M E).
Proof.
  unfold prob, gprob. apply (is_derive_Rsum (fun s i => Rsum (fun j => if E i j then pmf s i * pmf b j else 0) (seq 0 M))).
  intros i _. apply (is_derive_Rsum (fun s j => if E i j then pmf s i * pmf b j else 0)). intros j _.
  destruct (E i j); [|apply D_const]. eapply is_derive_eq; [apply D_mult; [apply D_pmf|apply D_const]|]. cbn beta. ring.
Qed.
Lemma D_prob_b a b N M E : is_derive (fun s => prob a s N M E) b (gprob (pmf a) (dpmf b) N M E).
Proof.
  unfold prob, gprob. apply (is_derive_Rsum (fun s i => Rsum (fun j => if E i j then pmf a i * pmf s j else 0) (seq 0 M))).
  intros i _. apply (is_derive_Rsum (fun s j => if E i j then pmf a i * pmf s j else 0)). intros j _.
  destruct (E i j); [|apply D_const]. eapply is_derive_eq; [apply D_mult; [apply D_const|apply D_pmf]|]. cbn beta. ring.
Qed.
Lemma masked a b m mk (E : nat -> nat -> bool) : (forall i j, mk (Z.of_nat j - Z.of_nat i)%Z = E i j) ->
  forall fr, skellam_frame a b (S m) = Ok fr ->
  map (mask_sum mk) fr = [prob a b (S m) (S m) E; gprob (dpmf a) (pmf b) (S m) (S m) E; gprob (pmf a) (dpmf b) (S m) (S m) E].
Proof.
  intros H fr Hf. rewrite frame_eq in Hf.
  match type of Hf with Ok ?x = _ => assert (E' : fr = x) by congruence end. rewrite E'. clear Hf E'.
  assert (K : forall f g, mask_sum mk (outer (map f (seq 0 (S m))) (map g (seq 0 (S m)))) = gprob f g (S m) (S m) E).
  { intros f g. rewrite mask_sum_outer. unfold gprob. apply Rsum_ext; intros i _; apply Rsum_ext; intros j _; now rewrite H. }
  assert (C : forall A B (h : A -> B) x y z, map h [x; y; z] = [h x; h y; h z]) by reflexivity.
  rewrite C, !K. reflexivity.
Qed.
Definition dprobs (a b : R) (N : nat) (E : nat -> nat -> bool) (l : list R) : Prop :=
  exists da db, l = [prob a b N N E; da; db] /\
  is_derive (fun s => prob s b N N E) a da /\ is_derive (fun s => prob a s N N E) b db.
Theorem skellam_cdf_ok ndtri a b n tol inv r : skellam_cdf ndtri a b n tol inv = Ok r ->
  exists N, is_size (size_arg (ndtri tol) a b) N /\ dprobs a b N (if inv then diff_ge n else diff_le n) r.
Proof.
  unfold skellam_cdf. destruct (tol2size ndtri tol [a; b]) as [z|x] eqn:E; cbn [rbind]; [|discriminate].
  pose proof (tol2size_ok _ _ _ _ E) as Ht. rewrite tol2size_cases in E by exact Ht. inversion E; subst z; clear E.
  set (z := (Rtrunc (size_arg (ndtri tol) a b) + 1)%Z).
  destruct (skellam_frame a b (Z.to_nat z)) as [fr|x] eqn:F; cbn [rbind]; [|discriminate]. intros H. inversion H; subst r; clear H.
  destruct (frame_ok _ _ _ _ F) as (m & Em).
  exists (Z.to_nat z). split; [apply Rtrunc_size; fold z; lia|]. rewrite Em in *.
  rewrite (masked a b m _ (if inv then diff_ge n else diff_le n)) with (fr := fr); [|intros; destruct inv; reflexivity|exact F].
  eexists _, _. split; [reflexivity|]. split; [apply D_prob_a|apply D_prob_b].
Qed.
Theorem skellam_cdf_total ndtri a b n tol inv : 0 < tol < 1 -> 0 <= size_arg (ndtri tol) a b ->
  exists r, skellam_cdf ndtri a b n tol inv = Ok r.
Proof.
  intros Ht Hs. unfold skellam_cdf. rewrite tol2size_cases by exact Ht. cbn [rbind].
  pose proof (Rtrunc_nonneg _ Hs). destruct (Z.to_nat _) as [|m] eqn:E; [lia|]. rewrite frame_eq. cbn [rbind]. eauto.
Qed.
Theorem skellam_cdf_pair_ok ndtri a b n tol p q : skellam_cdf_pair ndtri a b n tol = Ok (p, q) ->
  exists N, is_size (size_arg (ndtri tol) a b) N /\ dprobs a b N (diff_lt n) p /\ dprobs a b N (diff_gt n) q.
Proof.
  unfold skellam_cdf_pair. destruct (tol2size ndtri tol [a; b]) as [z|x] eqn:E; cbn [rbind]; [|discriminate].
  pose proof (tol2size_ok _ _ _ _ E) as Ht. rewrite tol2size_cases in E by exact Ht. inversion E; subst z; clear E.
  set (z := (Rtrunc (size_arg (ndtri tol) a b) + 1)%Z).
  destruct (skellam_frame a b (Z.to_nat z)) as [fr|x] eqn:F; cbn [rbind]; [|discriminate]. intros H. inversion H; subst p q; clear H.
  destruct (frame_ok _ _ _ _ F) as (m & Em).
  exists (Z.to_nat z). split; [apply Rtrunc_size; fold z; lia|]. rewrite Em in *.
  split.
  - rewrite (masked a b m _ (diff_lt n)) with (fr := fr); [|reflexivity|exact F].
    eexists _, _. split; [reflexivity|]. split; [apply D_prob_a|apply D_prob_b].
  - rewrite (masked a b m _ (diff_gt n)) with (fr := fr); [|reflexivity|exact F].
    eexists _, _. split; [reflexivity|]. split; [apply D_prob_a|apply D_prob_b].
Qed.
Theorem skellam_cdf_pair_total ndtri a b n tol : 0 < tol < 1 -> 0 <= size_arg (ndtri tol) a b ->
  exists r, skellam_cdf_pair ndtri a b n tol = Ok r.
Proof.
  intros Ht Hs. unfold skellam_cdf_pair. rewrite tol2size_cases by exact Ht. cbn [rbind].
  pose proof (Rtrunc_nonneg _ Hs). destruct (Z.to_nat _) as [|m] eqn:E; [lia|]. rewrite frame_eq. cbn [rbind]. eauto.
Qed.

(** ---- truncation ---- *)
Lemma term_nonneg a b E i j : 0 <= a -> 0 <= b -> 0 <= (if E i j : bool then pmf a i * pmf b j else 0).
Proof. intros. destruct (E i j); [|lra]. apply Rmult_le_pos; now apply pmf_nonneg. Qed.
Lemma prob_mono a b E N N' : 0 <= a -> 0 <= b -> (N <= N')%nat -> prob a b N N E <= prob a b N' N' E.
Proof.
  intros Ha Hb H. unfold prob. replace N' with (N + (N' - N))%nat by lia. rewrite !seq_app, Rsum_app, Nat.add_0_l.
  assert (0 <= Rsum (fun i => Rsum (fun j => if E i j then pmf a i * pmf b j else 0) (seq 0 N ++ seq N (N' - N))) (seq N (N' - N))).
  { apply Rsum_nonneg; intros i _. apply Rsum_nonneg; intros j _. now apply term_nonneg. }
  assert (Rsum (fun i => Rsum (fun j => if E i j then pmf a i * pmf b j else 0) (seq 0 N)) (seq 0 N) <=
          Rsum (fun i => Rsum (fun j => if E i j then pmf a i * pmf b j else 0) (seq 0 N ++ seq N (N' - N))) (seq 0 N)); [|lra].
  apply Rsum_le. intros i _. rewrite Rsum_app.
  assert (0 <= Rsum (fun j => if E i j then pmf a i * pmf b j else 0) (seq N (N' - N))); [|lra].
  apply Rsum_nonneg; intros j _. now apply term_nonneg.
Qed.
Lemma prob_split a b E N M : prob a b N M E + prob a b N M (fun i j => negb (E i j)) = pcdf a N * pcdf b M.
Proof.
  unfold prob, pcdf. rewrite <- Rsum_plus, <- Rsum_scal_r. apply Rsum_ext. intros i _.
  rewrite <- Rsum_plus, <- Rsum_scal. apply Rsum_ext. intros j _. destruct (E i j); cbn [negb]; ring.
Qed.
Lemma prob_nonneg a b E N M : 0 <= a -> 0 <= b -> 0 <= prob a b N M E.
Proof. intros. unfold prob. apply Rsum_nonneg; intros i _. apply Rsum_nonneg; intros j _. now apply term_nonneg. Qed.
Lemma prob_le_1 a b E N M : 0 <= a -> 0 <= b -> prob a b N M E <= 1.
Proof.
  intros Ha Hb. pose proof (prob_split a b E N M). pose proof (prob_nonneg a b (fun i j => negb (E i j)) N M Ha Hb).
  pose proof (pcdf_le_1 a N Ha). pose proof (pcdf_le_1 b M Hb). pose proof (pcdf_nonneg a N Ha). pose proof (pcdf_nonneg b M Hb). nra.
Qed.
Theorem true_prob_exists a b E : 0 <= a -> 0 <= b -> exists L, true_prob a b E L /\
  (forall N, prob a b N N E <= L <= prob a b N N E + (1 - pcdf a N * pcdf b N)).
Proof.
  intros Ha Hb.
  destruct (ex_finite_lim_seq_incr (fun N => prob a b N N E) 1) as (L & HL).
  - intros n. apply prob_mono; auto.
  - intros n. now apply prob_le_1.
  - exists L. split; [exact HL|]. intros N. split.
    + apply (lim_ge _ _ N _ HL). intros; now apply prob_mono.
    + apply (lim_le _ _ N _ HL). intros M HM.
      pose proof (prob_split a b E N N). pose proof (prob_split a b E M M).
      pose proof (prob_mono a b (fun i j => negb (E i j)) N M Ha Hb HM).
      pose proof (pcdf_le_1 a M Ha). pose proof (pcdf_le_1 b M Hb). pose proof (pcdf_nonneg a M Ha). pose proof (pcdf_nonneg b M Hb). nra.
Qed.
Lemma sizes_gt x N : is_size x N -> x < INR N.
Proof. intros [H|[-> H]]; [lra|cbn; lra]. Qed.
Lemma tail_bound q a b N : 0 <= a -> 0 <= b -> q < 0 -> is_size (size_arg q a b) N -> 1 - pcdf a N <= 1 / q ^ 2 /\ 1 - pcdf b N <= 1 / q ^ 2.
Proof.
  assert (A : forall a b, 0 <= a -> 0 <= b -> q < 0 -> size_arg q a b < INR N -> 1 - pcdf a N <= 1 / q ^ 2).
  { clear. intros a b Ha Hb Hq HN. unfold size_arg in HN. pose proof (sqrt_pos a). pose proof (sqrt_pos b).
    assert (Hsa : sqrt a * sqrt a = a) by now apply sqrt_sqrt.
    assert (Hq2 : 0 < q ^ 2) by (apply pow2_gt_0; lra).
    destruct (Req_dec a 0) as [->|Hne].
    - assert (0 < INR N). { rewrite sqrt_0 in HN. nra. }
      destruct N as [|N]; [cbn in *; lra|].
      assert (1 <= pcdf 0 (S N)).
      { eapply Rle_trans; [|apply (pcdf_mono 0 1); [lra|lia]]. unfold pcdf. cbn [seq]. rewrite Rsum_cons, Rsum_nil, pmf_0. cbn. lra. }
      assert (0 < 1 / q ^ 2) by (apply Rdiv_lt_0_compat; lra). lra.
    - assert (0 < sqrt a) by (apply sqrt_lt_R0; lra).
      assert (Hd : - q * sqrt a < INR N - a) by nra.
      assert (0 < - q * sqrt a) by nra.
      eapply Rle_trans; [apply chebyshev; [exact Ha|lra]|].
      assert (HP : 0 < (INR N - a) ^ 2) by (apply pow_lt; lra).
      apply (Rmult_le_reg_r ((INR N - a) ^ 2)); [exact HP|]. replace (a / (INR N - a) ^ 2 * (INR N - a) ^ 2) with a by (field; lra).
      apply (Rmult_le_reg_r (q ^ 2)); [exact Hq2|]. replace (1 / q ^ 2 * (INR N - a) ^ 2 * q ^ 2) with ((INR N - a) ^ 2) by (field; lra).
      replace (a * q ^ 2) with ((- q * sqrt a) ^ 2) by (cbn; rewrite <- Hsa at 3; ring). apply pow_incr. lra. }
  intros Ha Hb Hq HN. apply sizes_gt in HN. split; [now apply (A a b)|]. apply (A b a); auto. unfold size_arg in *. lra.
Qed.

(** ---- poisson_cdf_root ---- *)
Section ProotS.
Variables (target tol : R) (n : nat).
Let F a := pcdf a (S n).
Lemma proot_inner_ok k : forall a e step sf na ne, 0 < a -> (ne < Rabs e -> ne = Rabs (target - F na)) ->
  exists r c, proot_inner k target n a e step sf na ne = Ok (r, c) /\ (c <= k)%nat /\ 0 < r /\
  (r = a \/ Rabs (target - F r) < Rabs e).
Proof.
  induction k as [|k IH]; intros a e step sf na ne Ha Hne; cbn [proot_inner].
  - exists a, 0%nat. repeat split; auto.
  - assert (Hrec : exists r c, (let! (nf, _) := poisson_cdf (a + sf * step) n in
       let! (r, c) := proot_inner k target n a e step (sf * / 2) (a + sf * step) (Rabs (target - nf)) in Ok (r, S c)) = Ok (r, c)
       /\ (c <= S k)%nat /\ 0 < r /\ (r = a \/ Rabs (target - F r) < Rabs e)).
    { rewrite poisson_cdf_eq. cbn [rbind].
      destruct (IH a e step (sf * / 2) (a + sf * step) (Rabs (target - pcdf (a + sf * step) (S n))) Ha ltac:(intros; reflexivity)) as (r & c & E & Hc & Hr & Hd).
      rewrite E. cbn [rbind]. exists r, (S c). repeat split; auto. lia. }
    destruct (Rlt_dec 0 na) as [Hna|]; [|exact Hrec]. destruct (Rlt_dec ne (Rabs e)) as [Hlt|]; [|exact Hrec].
    exists na, 0%nat. split; [reflexivity|]. split; [lia|]. split; [exact Hna|]. right. rewrite <- Hne by exact Hlt. exact Hlt.
Qed.
Lemma proot_loop_ok junk : forall fuel a e count calls, 0 < a -> Rabs (target - F a) <= Rabs e ->
  (51 <= fuel + count)%nat -> (count <= 50)%nat -> (calls <= 11 * count)%nat ->
  exists v it cl, proot_loop junk fuel target n tol a e count calls = Some (Ok (v, (it, cl))) /\
  (it <= 51)%nat /\ (cl <= 11 * it)%nat /\
  match v with
  | VNum r => 0 < r /\ Rabs (target - F r) <= Rabs tol /\ (it <= 50)%nat
  | VClass x => x = ConvergenceError /\ it = 51%nat
  end.
Proof.
  induction fuel as [|fuel IH]; intros a e count calls Ha He Hf Hc Hcl.
  - lia.
  - cbn [proot_loop]. destruct (Rlt_dec (Rabs tol) (Rabs e)) as [Hlt|Hge].
    + rewrite poisson_cdf_eq. cbn [rbind]. fold (F a).
      set (st := np_div junk (target - F a) (- pmf a n)).
      destruct (proot_inner_ok 10 a (target - F a) st 1 (a + 1 * st) (Rabs (target - F a)) Ha ltac:(intros; lra)) as (r & c & E & Hc' & Hr & Hd).
      rewrite E. cbn [rbind]. destruct (50 <? S count)%nat eqn:Ec.
      * apply Nat.ltb_lt in Ec. eexists _, _, _. split; [reflexivity|]. repeat split; lia.
      * apply Nat.ltb_ge in Ec. apply IH; try lia; [exact Hr|]. destruct Hd as [->|Hd]; lra.
    + eexists _, _, _. split; [reflexivity|]. repeat split; try lia; [exact Ha|]. lra.
Qed.
End ProotS.
Lemma proot_guess_pos ndtri target n : 0 < proot_guess ndtri target n.
Proof. unfold proot_guess. eapply Rlt_le_trans; [|apply Rmax_r]. lra. Qed.
Theorem poisson_cdf_root_ok ndtri junk fuel target n tol : 0 < target < 1 -> (51 <= fuel)%nat ->
  exists v it cl, poisson_cdf_root ndtri junk fuel target n tol = Some (Ok (v, (it, cl))) /\
  (it <= 51)%nat /\ (cl <= 11 * it)%nat /\
  match v with
  | VNum r => 0 < r /\ Rabs (target - pcdf r (S n)) <= Rabs tol /\ (it <= 50)%nat
  | VClass x => x = ConvergenceError /\ it = 51%nat
  end.
Proof.
  intros Ht Hf. unfold poisson_cdf_root. destruct (Rle_dec 1 target); [lra|]. destruct (Rle_dec target 0); [lra|].
  apply proot_loop_ok; try lia; [apply proot_guess_pos|].
  pose proof (pcdf_pos _ n (proot_guess_pos ndtri target n)). pose proof (pcdf_lt_1 _ (S n) (proot_guess_pos ndtri target n)).
  rewrite (Rabs_pos_eq 1) by lra. apply Rabs_le. lra.
Qed.
(** the root exists and is unique *)
Lemma lower_tail a N : INR N < a -> pcdf a N <= a / (a - INR N) ^ 2.
Proof.
  intros H. assert (Ha : 0 <= a) by (pose proof (pos_INR N); lra).
  assert (HP : 0 < (a - INR N) ^ 2) by (apply pow_lt; lra).
  apply (Rmult_le_reg_l _ _ _ HP). replace ((a - INR N) ^ 2 * (a / (a - INR N) ^ 2)) with a by (field; lra).
  eapply Rle_trans; [|apply (moment_le a N Ha)]. unfold pcdf. rewrite <- Rsum_scal. apply Rsum_le. intros u Hu. apply in_seq in Hu.
  apply Rmult_le_compat_r; [now apply pmf_nonneg|]. replace ((INR u - a) ^ 2) with ((a - INR u) ^ 2) by ring.
  apply pow_incr. assert (INR u <= INR N) by (apply le_INR; lia). lra.
Qed.
Theorem root_exists_unique target n : 0 < target < 1 -> exists! a, 0 < a /\ pcdf a (S n) = target.
Proof.
  intros Ht. set (F := fun a => pcdf a (S n)).
  assert (CF : forall x, continuity_pt F x).
  { intros x. apply derivable_continuous_pt. exists (Rsum (dpmf x) (seq 0 (S n))). apply is_derive_Reals, D_pcdf. }
  assert (F0 : F 0 = 1).
  { unfold F, pcdf. cbn [seq]. rewrite Rsum_cons, pmf_0. cbn [Nat.eqb]. rewrite Rsum_zero; [ring|].
    intros x Hx. apply in_seq in Hx. rewrite pmf_0. destruct x; [lia|reflexivity]. }
  set (m := INR (S n)). assert (Hm : 0 <= m) by apply pos_INR.
  set (t := (m + 2) / target). assert (Hti : 1 < / target) by (rewrite <- Rinv_1 at 1; apply Rinv_lt_contravar; lra).
  assert (Htt : t * target = m + 2) by (unfold t; field; lra).
  assert (Hto : 1 < t) by (unfold t, Rdiv; nra).
  assert (Fb : F (m + t) < target).
  { unfold F. eapply Rle_lt_trans; [apply lower_tail; fold m; lra|]. fold m. replace (m + t - m) with t by ring.
    apply (Rmult_lt_reg_r (t ^ 2)); [apply pow_lt; lra|]. replace ((m + t) / t ^ 2 * t ^ 2) with (m + t) by (field; lra). nra. }
  destruct (IVT (fun a => target - F a) 0 (m + t)) as (a & Ha & E).
  - intros x. apply continuity_pt_minus; [apply continuity_pt_const; intros ? ?; reflexivity|apply CF].
  - lra.
  - rewrite F0. lra.
  - lra.
  - exists a. split.
    + assert (a <> 0) by (intros ->; rewrite F0 in E; lra). split; [lra|]. unfold F in E. lra.
    + intros a' [Ha' E']. assert (0 < a) by (assert (a <> 0) by (intros ->; rewrite F0 in E; lra); lra).
      destruct (Rtotal_order a a') as [H1|[H1|H1]]; [|exact H1|].
      * pose proof (pcdf_decreasing n a a' ltac:(lra) H1). unfold F in E. lra.
      * pose proof (pcdf_decreasing n a' a ltac:(lra) H1). unfold F in E. lra.
Qed.
