(** C91: fitting the two-sided model to counts. *)
From Verif Require Import Prelude DenseModel AnalyticSpec NDArray NDProofs TensorModel TensorSpec TensorSum TensorUfunc FuncModel FuncSpec FTModel FTSpec FTPrim FTWrap FTRep FTBuilt FTValue FTFindings LTModel LTPlain LTCell LTEst LTLik LTSpec LTDer Props_LT DenseProofs FTTwoSided Props_Sided.
From Verif Require FuncLemmas FuncPrim.
From Coquelicot Require Import Coquelicot.
From Coq Require Import Reals Lra Sorted FunctionalExtensionality.
Import List ListNotations.
Open Scope R_scope.
#[local] Existing Instance loose.

Definition pairs (m : nat) (g : nat -> nat -> R) : R := Rsum (fun i => Rsum (fun j => g i j) (seq 0 m)) (seq 0 m).
Lemma over_pairs m g : over ([m; m], []) g = pairs m (fun i j => g [i; j] []).
Proof.
  unfold over, pairs. cbn [fst snd]. rewrite Rsum_indices_cons. apply (Rsum_ext _ _ (seq 0 m)). intros i _. rewrite Rsum_indices_cons. apply (Rsum_ext _ _ (seq 0 m)). intros j _.
  cbn [indices]. rewrite !Rsum_cons, !Rsum_nil. ring.
Qed.
Lemma pairs_ext m f g : (forall i j, (i < m)%nat -> (j < m)%nat -> f i j = g i j) -> pairs m f = pairs m g.
Proof.
  intros H. unfold pairs. apply (Rsum_ext _ _ (seq 0 m)). intros i Hi. apply in_seq in Hi. apply (Rsum_ext _ _ (seq 0 m)). intros j Hj. apply in_seq in Hj. apply H; lia.
Qed.
Lemma two_sided_model m : (1 <= m)%nat -> model_for (sides m) ([m; m]%nat, []) (are_pars (sides m)) two_sided.
Proof.
  intros Hm. constructor; [|now apply sides_pos|split; [repeat constructor; exact Hm|discriminate]]. eexists; eexists; eexists. split; [exact (two_sided_built m Hm)|].
  split; [reflexivity|]. split; [apply ax_refl; repeat constructor; exact Hm|]. split; [constructor|]. reflexivity.
Qed.
Definition loglikelihood (gammaln : R -> R) (X W : nat -> nat -> R) m (a b : nat -> R) (h : R) : R :=
  pairs m (fun i j => X i j * ln (scored a b h i j + conceded a b h i j) - W i j * (scored a b h i j + conceded a b h i j) - gammaln (X i j + 1)).
Theorem C91_likelihood : forall m X W gammaln, (1 <= m)%nat -> is_data ([m; m]%nat, []) X -> is_data ([m; m]%nat, []) W ->
  (exists V, likelihood_is (sides m) (are_pars (sides m)) (e_Poisson gammaln X W) two_sided V /\
   forall a b h, V [vec m a; vec m b; PNum h] = loglikelihood gammaln (fun i j => cell X [i; j] []) (fun i j => cell W [i; j] []) m a b h).
Proof.
  intros m X W g Hm HX HW. pose proof (C76_poisson _ _ _ _ X W g (two_sided_model m Hm) HX HW) as L. eexists. split; [exact L|].
  intros a b h. cbv beta. rewrite over_pairs. apply pairs_ext. intros i j Hi Hj. unfold fitted. rewrite (C91_value m a b h i j Hm Hi Hj). rewrite exp_ln; [reflexivity|].
  unfold scored, conceded. apply Rplus_lt_0_compat; apply exp_pos.
Qed.
Print Assumptions C91_likelihood.
Lemma block_number r B : is_block r [] [] B -> at_res r [] [] [] [] = B [] [].
Proof.
  intros (t & -> & Ax & Xm & Ym & Sh & El). rewrite <- (El [] [] (or_introl eq_refl) (or_introl eq_refl)). destruct t as [[sh V] x y n d xm' ym']. cbn in Ax, Xm, Ym, Sh. injection Ax as -> -> -> ->. subst.
  unfold at_res. cbn. ring.
Qed.
Lemma score_along m X W gammaln a b h da db dh v : (1 <= m)%nat -> is_data ([m; m]%nat, []) X -> is_data ([m; m]%nat, []) W ->
  (forall k, (k < m)%nat -> v 0%nat (k :: nil) = da k) -> (forall k, (k < m)%nat -> v 1%nat (k :: nil) = db k) -> v 2%nat [] = dh ->
  pairing (sides m) (fun p x => at_res (t_grad (loglik (e_Poisson gammaln X W) two_sided) [vec m a; vec m b; PNum h] p) x [] [] []) v =
  pairs m (fun i j => (cell X [i; j] [] / (scored a b h i j + conceded a b h i j) - cell W [i; j] []) *
    (scored a b h i j * (da i - db j + dh) + conceded a b h i j * (da j - db i - dh))).
Proof.
  intros Hm HX HW Va Vb Vh. destruct (C91_likelihood m X W gammaln Hm HX HW) as (V & L & EV).
  pose proof (line_curve m a b h da db dh v Va Vb Vh) as Pc. pose proof (line_0 m a b h da db dh) as E0. set (c := line m a b h da db dh) in *.
  assert (Lc : locally 0 (fun s => are_pars (sides m) (c s))) by (apply filter_forall; intros s; repeat constructor).
  pose proof (tc_grad _ _ _ _ (lr_derivatives _ _ _ _ _ L) c v 0 Pc Lc [] [] (or_introl eq_refl) (or_introl eq_refl)) as G.
  rewrite E0 in G. apply is_derive_unique in G. rewrite <- G. apply is_derive_unique.
  apply (is_derive_ext (fun s => loglikelihood gammaln (fun i j => cell X [i; j] []) (fun i j => cell W [i; j] []) m (fun k => a k + s * da k) (fun k => b k + s * db k) (h + s * dh))).
  - intros s. rewrite <- EV. symmetry. exact (block_number _ _ (lr_value _ _ _ _ _ L (c s) ltac:(repeat constructor) ltac:(repeat constructor))).
  - unfold loglikelihood, pairs. apply is_derive_Rsum. intros i _. apply is_derive_Rsum. intros j _. unfold scored, conceded. auto_derive.
    + repeat split; try apply Rplus_lt_0_compat; try apply exp_pos; auto.
    + rewrite ?Rmult_0_l, ?Rplus_0_r. unfold Rminus. field. pose proof (exp_pos (a i + - b j + h)). pose proof (exp_pos (a j + - b i + - h)). lra.
Qed.
Lemma Rsum_is_at m k f : (k < m)%nat -> Rsum (fun i => is i k * f i) (seq 0 m) = f k.
Proof.
  intros Hk. replace m with (k + Datatypes.S (m - k - 1))%nat by lia. rewrite seq_app, Rsum_app. cbn [seq]. rewrite Rsum_cons.
  rewrite (Rsum_ext _ (fun _ => 0) (seq 0 k)) by (intros i Hi; apply in_seq in Hi; unfold is; destruct (Nat.eqb_spec i k); [lia|ring]).
  rewrite (Rsum_ext _ (fun _ => 0) (seq (Datatypes.S (0 + k)) _)) by (intros i Hi; apply in_seq in Hi; unfold is; destruct (Nat.eqb_spec i k); [lia|ring]).
  rewrite !(Rsum_zero (fun _ : nat => 0)) by reflexivity. unfold is. cbn [Nat.add]. rewrite Nat.eqb_refl. ring.
Qed.
Lemma pairs_at m k f g : (k < m)%nat -> pairs m (fun i j => is i k * f i j + is j k * g i j) = Rsum (fun j => f k j + g j k) (seq 0 m).
Proof.
  intros Hk. unfold pairs.
  rewrite (Rsum_ext _ (fun i => is i k * Rsum (fun j => f i j) (seq 0 m) + g i k) (seq 0 m)).
  - rewrite Rsum_plus, Rsum_is_at by exact Hk. now rewrite Rsum_plus.
  - intros i _. rewrite Rsum_plus, (Rsum_is_at m k (fun j => g i j) Hk). f_equal. now rewrite Rsum_scal.
Qed.
(** the score: what grad_like returns *)
Theorem C91_score : forall m X W gammaln a b h k, (1 <= m)%nat -> (k < m)%nat -> is_data ([m; m]%nat, []) X -> is_data ([m; m]%nat, []) W ->
  let s := scored a b h in let c := conceded a b h in let r := fun i j => cell X [i; j] [] / (s i j + c i j) - cell W [i; j] [] in
  let score := fun p x => at_res (t_grad (loglik (e_Poisson gammaln X W) two_sided) [vec m a; vec m b; PNum h] p) x [] [] [] in
  score 0%nat (k :: nil) = Rsum (fun j => r k j * s k j + r j k * c j k) (seq 0 m) /\
  score 1%nat (k :: nil) = - Rsum (fun i => r i k * s i k + r k i * c k i) (seq 0 m) /\
  score 2%nat [] = pairs m (fun i j => r i j * (s i j - c i j)).
Proof.
  intros m X W g a b h k Hm Hk HX HW s c r score.
  assert (Ik : In (k :: nil) (indices (m :: nil))) by (apply In_indices; now repeat constructor).
  split; [|split].
  - pose proof (pairing_unit (sides m) score 0 (k :: nil) ltac:(cbn; lia) Ik) as P. rewrite <- P.
    rewrite (score_along m X W g a b h (fun u => is u k) (fun _ => 0) 0 _ Hm HX HW).
    + rewrite (pairs_ext m _ (fun i j => is i k * (r i j * s i j) + is j k * (r i j * c i j))) by (intros i j _ _; unfold r, s, c; ring).
      now rewrite pairs_at.
    + intros u _. cbn [Nat.eqb andb]. unfold is. now rewrite eqb_idx_one.
    + reflexivity. + reflexivity.
  - pose proof (pairing_unit (sides m) score 1 (k :: nil) ltac:(cbn; lia) Ik) as P. rewrite <- P.
    rewrite (score_along m X W g a b h (fun _ => 0) (fun u => is u k) 0 _ Hm HX HW).
    + rewrite (pairs_ext m _ (fun i j => is i k * (- (r i j * c i j)) + is j k * (- (r i j * s i j)))) by (intros i j _ _; unfold r, s, c; ring).
      rewrite pairs_at by exact Hk. rewrite <- Rsum_opp. apply (Rsum_ext _ _ (seq 0 m)). intros i _. ring.
    + reflexivity.
    + intros u _. cbn [Nat.eqb andb]. unfold is. now rewrite eqb_idx_one.
    + reflexivity.
  - pose proof (pairing_unit (sides m) score 2 [] ltac:(cbn; lia) (or_introl eq_refl)) as P. rewrite <- P.
    rewrite (score_along m X W g a b h (fun _ => 0) (fun _ => 0) 1 _ Hm HX HW).
    + apply pairs_ext. intros i j _ _. unfold r, s, c. ring.
    + reflexivity. + reflexivity. + reflexivity.
Qed.
Print Assumptions C91_score.
(** moving a and b together does not change the likelihood: the scores of a and b add up to 0 *)
Theorem C91_flat_direction : forall m X W gammaln a b h, (1 <= m)%nat -> is_data ([m; m]%nat, []) X -> is_data ([m; m]%nat, []) W ->
  let score := fun p x => at_res (t_grad (loglik (e_Poisson gammaln X W) two_sided) [vec m a; vec m b; PNum h] p) x [] [] [] in
  Rsum (fun k => score 0%nat (k :: nil)) (seq 0 m) + Rsum (fun k => score 1%nat (k :: nil)) (seq 0 m) = 0.
Proof.
  intros m X W g a b h Hm HX HW score.
  rewrite <- Rsum_plus. set (s := scored a b h). set (c := conceded a b h). set (r := fun i j => cell X [i; j] [] / (s i j + c i j) - cell W [i; j] []).
  rewrite (Rsum_ext _ (fun k => Rsum (fun j => r k j * s k j - r k j * c k j) (seq 0 m) + Rsum (fun j => r j k * c j k - r j k * s j k) (seq 0 m)) (seq 0 m)).
  - rewrite Rsum_plus. rewrite (Rsum_swap (fun k j => r j k * c j k - r j k * s j k)). rewrite <- Rsum_plus. apply Rsum_zero. intros k _. rewrite <- Rsum_plus. apply Rsum_zero. intros j _. ring.
  - intros k Hk. apply in_seq in Hk. destruct (C91_score m X W g a b h k Hm ltac:(lia) HX HW) as (A & B & _). unfold score. cbv zeta in A, B. rewrite A, B. fold s c. change (fun i j => cell X [i; j] [] / (scored a b h i j + conceded a b h i j) - cell W [i; j] []) with r.
    rewrite <- Rsum_opp, <- !Rsum_plus. apply (Rsum_ext _ _ (seq 0 m)). intros j _. unfold r. ring.
Qed.
Print Assumptions C91_flat_direction.
(** a 2 x 2 table of counts *)
Definition table22 (V : nat -> nat -> R) : pval := PT (mkT (mkA [2; 2]%nat (fun i => V (nth 0 i 0%nat) (nth 1 i 0%nat))) 0 0 2 0 [] []).
Lemma table22_data V : is_data ([2; 2]%nat, []) (table22 V).
Proof.
  eexists. split; [reflexivity|]. split; [repeat split|]. constructor; cbn; auto; repeat constructor; cbn; auto; lia.
Qed.
Example C91_score_nonvacuous : forall gammaln,
  at_res (t_grad (loglik (e_Poisson gammaln (table22 (fun i j => if Nat.eqb (i + j) 0 then 4 else 2)) (table22 (fun _ _ => 1))) two_sided) [vec 2 (fun _ => 0); vec 2 (fun _ => 0); PNum 0] 0) (0%nat :: nil) [] [] [] = 2 /\
  at_res (t_grad (loglik (e_Poisson gammaln (table22 (fun i j => if Nat.eqb (i + j) 0 then 4 else 2)) (table22 (fun _ _ => 1))) two_sided) [vec 2 (fun _ => 0); vec 2 (fun _ => 0); PNum 0] 1) (0%nat :: nil) [] [] [] = - 2.
Proof.
  intros g. assert (E : exp (0 - 0 + 0) = 1 /\ exp (0 - 0 - 0) = 1) by (split; (replace (0 - 0 + 0) with 0 by ring); (replace (0 - 0 - 0) with 0 by ring); exact exp_0). destruct E as [E1 E2].
  destruct (C91_score 2 _ _ g (fun _ => 0) (fun _ => 0) 0 0 ltac:(lia) ltac:(lia) (table22_data (fun i j => if Nat.eqb (i + j) 0 then 4 else 2)) (table22_data (fun _ _ => 1))) as (A & B & _).
  rewrite A, B. unfold scored, conceded. rewrite E1, E2. cbn [seq]. rewrite !Rsum_cons, !Rsum_nil. unfold cell, table22, get. cbn. split; lra.
Qed.
Print Assumptions C91_score_nonvacuous.
