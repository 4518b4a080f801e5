(** C77: Finite, computing with Tensors. *)
From Verif Require Import Prelude DenseModel AnalyticSpec NDArray NDProofs TensorModel TensorSpec TensorUfunc FuncModel FuncSpec FTModel FTSpec FTPrim FTWrap FTRep FTBuilt FTValue FTFindings LTModel LTPlain LTCell LTEst LTLik LTSpec LTDer LTFinDer LTFindings LTFinFindings DenseProofs Props_FT Props_LT.
From Coquelicot Require Import Coquelicot.
From Coq Require Import Reals Lra.
Import List ListNotations.
Open Scope R_scope.

(** *** C77: like, grad_like and hess_like of Finite *)
Theorem C77_finite : forall ss dat D f N, full_model_for ss dat D f -> is_data dat N ->
  likelihood_is ss (fun ps => D ps /\ forall n d, In n (indices (fst dat)) -> In d (indices (snd dat)) -> 0 < fitted f ps n d)
    (e_Finite N) f
    (fun ps => over dat (fun n d => cell N n d * (ln (fitted f ps n d) - ln (fitted_total dat f ps n)))).
Proof. intros ss dat D f N M. exact (finite_right ss dat D f N (full_model_dense _ _ _ _ M)). Qed.
Print Assumptions C77_finite.

(** the log-linear Poisson model of C73, built with full dim axes *)
Lemma linear2_full : @tbuilt full_dims two_axes ([2; 3]%nat, []) anyP [0%nat; 1%nat] (fun i => existsb (fun a => ta_dep a i) atoms2) false linear2.
Proof.
  apply (@tb_sum full_dims two_axes anyP atoms2 0).
  - exact pos_two. - discriminate. - repeat constructor; cbn; lra. - exact atoms2_bc. - intros E; vm_compute in E; discriminate E.
  - repeat constructor.
  - repeat constructor; intros f [<-|[]]; reflexivity.
  - now left.
  - intros a [<-|[<-|[]]]; cbn [ta_o ta_mf ta_dep ta_col ta_f].
    + apply (tb_domain _ _ (fun ps => anyP (map (fun k => nth k ps (PNum 0)) (0%nat :: nil)))); [intros; exact I|].
      apply (tb_wrap two_axes ((2 :: nil)%nat, []) anyP (seq 0 1) (fun _ => true) false (mkW (0%nat :: nil) (0%nat :: nil) 2 [] 0 []) t_X).
      * apply sing. * repeat constructor. * apply wok. lia. * left; repeat constructor. * now left. * apply (tb_X (2 :: nil)%nat). repeat constructor.
    + apply (tb_domain _ _ (fun ps => anyP (map (fun k => nth k ps (PNum 0)) (1%nat :: nil)))); [intros; exact I|].
      apply (tb_wrap two_axes ((3 :: nil)%nat, []) anyP (seq 0 1) (fun _ => true) false (mkW (1%nat :: nil) (1%nat :: nil) 2 [] 0 []) t_X).
      * apply sing. * repeat constructor. * apply wok. lia. * left; repeat constructor. * now left. * apply (tb_X (3 :: nil)%nat). repeat constructor.
Qed.
Lemma rate2_full : @tbuilt full_dims two_axes ([2; 3]%nat, []) anyP [0%nat; 1%nat] (fun _ => true) false rate2.
Proof.
  apply (tb_domain _ _ (fun ps => (forall v, t_call linear2 ps = Ok v -> anyP (v :: nil)) /\ anyP ps)); [intros; split; [intros; exact I|exact I]|].
  apply (tb_compose two_axes ([2; 3]%nat, []) [] anyP anyP [0%nat; 1%nat] (fun i => existsb (fun a => ta_dep a i) atoms2) t_Exp linear2).
  - exact pos_two. - discriminate. - intros [|[|i]] Hi; [reflexivity|reflexivity|cbn in Hi; lia].
  - apply (o_Exp [2; 3]%nat). repeat constructor.
  - exact linear2_full.
Qed.
Lemma poisson2_full : full_model_for two_axes ([2; 3]%nat, (4 :: nil)%nat) anyP poisson2.
Proof.
  constructor; [|exact pos_two|split; [repeat constructor|discriminate]]. exists ([2; 3]%nat, (4 :: nil)%nat), [0%nat; 1%nat], (fun _ => true).
  split; [|split; [reflexivity|split; [apply ax_refl; repeat constructor|split; reflexivity]]].
  apply (tb_domain _ _ (fun ps => (forall v, t_call rate2 ps = Ok v -> anyP (v :: nil)) /\ anyP ps)); [intros; split; [intros; exact I|exact I]|].
  apply (tb_compose two_axes ([2; 3]%nat, []) (4 :: nil)%nat anyP anyP [0%nat; 1%nat] (fun _ => true) (t_Poisson 4) rate2).
  - exact pos_two. - discriminate. - reflexivity.
  - apply o_Poisson; [repeat constructor|lia].
  - exact rate2_full.
Qed.
Lemma poisson2_value u v i j k : (i < 2)%nat -> (j < 3)%nat -> (k < 4)%nat ->
  fitted poisson2 [vec 2 u; vec 3 v] [i; j] (k :: nil) = exp (u i + v j) ^ k / INR (fact k).
Proof.
  intros Hi Hj Hk. destruct (C74_compose _ _ _ _ _ (t_Poisson 4) rate2 _ rate2_built (vecs_par u v) I) as (w & Ew & Pw & Ec & Vw).
  assert (Hn : In [i; j] (indices [2; 3]%nat)) by (apply In_indices; constructor; [exact Hi|constructor; [exact Hj|constructor]]).
  unfold fitted, poisson2. rewrite Ec. rewrite (C74_poisson 4 ([2; 3]%nat, []) w [i; j] k); [|repeat constructor|exact Hk|exact Pw|exact Hn].
  pose proof (Vw [i; j] [] Hn (or_introl eq_refl)) as E. rewrite app_nil_r in E. rewrite E. now rewrite C74_nonvacuous.
Qed.
(** counts 2 x 3 x 4 *)
Definition table234 (V : nat -> nat -> nat -> R) : pval := PT (mkT (mkA [2; 3; 4]%nat (fun i => V (nth 0 i 0%nat) (nth 1 i 0%nat) (nth 2 i 0%nat))) 0 0 2 1 [] []).
Lemma table234_data V : is_data ([2; 3]%nat, (4 :: nil)%nat) (table234 V).
Proof. eexists. split; [reflexivity|]. split; [repeat split|]. constructor; cbn; auto; repeat constructor; cbn; lia. Qed.
Lemma poisson2_pos u v n d : In n (indices [2; 3]%nat) -> In d (indices (4 :: nil)%nat) -> 0 < fitted poisson2 [vec 2 u; vec 3 v] n d.
Proof.
  intros Hn Hd. apply In_indices in Hn, Hd. inversion Hn as [|i ? n1 ? Hi H1]; subst. inversion H1 as [|j ? n2 ? Hj H2]; subst. inversion H2; subst.
  inversion Hd as [|k ? d1 ? Hk H3]; subst. inversion H3; subst. rewrite poisson2_value by assumption.
  apply Rdiv_lt_0_compat; [apply pow_lt, exp_pos|apply INR_fact_lt_0].
Qed.
(** Finite regression on the table: the hypotheses hold for every value of the parameters *)
Example C77_nonvacuous : forall V u v,
  is_block (t_call (loglik (e_Finite (table234 V)) poisson2) [vec 2 u; vec 3 v]) [] []
    (fun _ _ => over ([2; 3]%nat, (4 :: nil)%nat) (fun n d => cell (table234 V) n d *
       (ln (fitted poisson2 [vec 2 u; vec 3 v] n d) - ln (fitted_total ([2; 3]%nat, (4 :: nil)%nat) poisson2 [vec 2 u; vec 3 v] n)))) /\
  (exists t, t_hess (loglik (e_Finite (table234 V)) poisson2) [vec 2 u; vec 3 v] 1 0 = Ok (PT t) /\ shp (tv t) = [3; 2]%nat) /\
  fitted_total ([2; 3]%nat, (4 :: nil)%nat) poisson2 [vec 2 u; vec 3 v] [1; 2]%nat =
    (let l := exp (u 1%nat + v 2%nat) in 1 + l + l ^ 2 / 2 + l ^ 3 / 6) /\
  cell (table234 V) [1; 2]%nat (3 :: nil)%nat = V 1%nat 2%nat 3%nat.
Proof.
  intros V u v. pose proof (C77_finite _ _ _ _ _ poisson2_full (table234_data V)) as L.
  assert (Dm : anyP [vec 2 u; vec 3 v] /\ forall n d, In n (indices [2; 3]%nat) -> In d (indices (4 :: nil)%nat) -> 0 < fitted poisson2 [vec 2 u; vec 3 v] n d).
  { split; [exact I|]. intros n d. apply poisson2_pos. }
  split; [exact (lr_value _ _ _ _ _ L _ (vecs_par u v) Dm)|]. split.
  - destruct (lr_hess _ _ _ _ _ L _ 1 0 (vecs_par u v) Dm) as (t & Et & _ & _ & _ & Sh & _); [cbn; lia|lia|]. exists t. split; [exact Et|exact Sh].
  - split; [|cbn; ring]. cbv zeta. unfold fitted_total. cbn [snd]. unfold indices. cbn [seq flat_map map app]. unfold Rsum; cbn [map fold_right].
    rewrite !poisson2_value by lia. cbn [fact Nat.mul Nat.add pow]. simpl INR. field.
Qed.
Print Assumptions C77_nonvacuous.

(** a model that is smoothed by adding a parameter to all probabilities of a row:
    the derivative for that parameter has a dim axis of size 1, [sum(False)] does
    not multiply it by the number of values, and the gradient has the wrong value
    (theta = 1, lambda = 0: the wrong sign, 1/6 for -1/6) *)
Definition smooth_pars : list pst := [((1 :: nil)%nat, []); ((1 :: nil)%nat, [])].
Lemma smoothed_model : model_for smooth_pars ((1 :: nil)%nat, (2 :: nil)%nat) anyP smoothed /\ is_data ((1 :: nil)%nat, (2 :: nil)%nat) obs10.
Proof.
  split.
  2:{ eexists. split; [reflexivity|]. split; [repeat split|]. constructor; cbn; auto; repeat constructor; cbn; lia. }
  constructor; [|repeat constructor|split; [repeat constructor|discriminate]].
  set (a1 := mkTAtom 1 (t_wrap (mkW (0 :: nil)%nat (0 :: nil)%nat 1 [] 1 []) t_X) ((1 :: nil)%nat, (1 :: nil)%nat) (0 :: nil)%nat (wdep (mkW (0 :: nil)%nat (0 :: nil)%nat 1 [] 1 []) (fun _ => true)) false).
  set (a2 := mkTAtom 1 (t_wrap (mkW (1 :: nil)%nat (0 :: nil)%nat 1 (0 :: nil)%nat 1 []) (t_Poisson 2)) ((1 :: nil)%nat, (2 :: nil)%nat) (0 :: nil)%nat (wdep (mkW (1 :: nil)%nat (0 :: nil)%nat 1 (0 :: nil)%nat 1 []) (fun _ => true)) false).
  assert (Bc : broadcastable (map ta_o [a1; a2])) by (repeat apply Forall_cons; [| |apply Forall_nil]; (split; (constructor; [|constructor]); cbn; auto)).
  exists ((1 :: nil)%nat, (2 :: nil)%nat), ([0; 0]%nat), (fun i => existsb (fun a => ta_dep a i) [a1; a2]). split; [|split; [intros [|[|i]] Hi; [reflexivity|reflexivity|cbn in Hi; lia]|split; [apply ax_refl; repeat constructor|split; [apply ax_refl; repeat constructor|reflexivity]]]].
  apply (@tb_sum loose smooth_pars anyP [a1; a2] 0).
  - repeat constructor. - discriminate. - repeat constructor; cbn; lra. - exact Bc. - intros E; vm_compute in E; discriminate E.
  - apply loose_dims, Bc.
  - repeat constructor; intros f [<-|[]]; reflexivity.
  - now left.
  - intros a [<-|[<-|[]]]; cbn [ta_o ta_mf ta_dep ta_col ta_f a1 a2].
    + apply (tb_domain _ _ (fun ps => anyP (map (fun k => nth k ps (PNum 0)) (0%nat :: nil)))); [intros; exact I|].
      apply (tb_wrap smooth_pars ((1 :: nil)%nat, []) anyP (seq 0 1) (fun _ => true) false (mkW (0 :: nil)%nat (0 :: nil)%nat 1 [] 1 []) t_X).
      * apply sing. * repeat constructor. * constructor; cbn; auto; repeat constructor; auto. * left; repeat constructor. * now left. * apply (tb_X (1 :: nil)%nat). repeat constructor.
    + apply (tb_domain _ _ (fun ps => anyP (map (fun k => nth k ps (PNum 0)) (1%nat :: nil)))); [intros; exact I|].
      apply (tb_wrap smooth_pars ((1 :: nil)%nat, (2 :: nil)%nat) anyP (seq 0 1) (fun _ => true) false (mkW (1 :: nil)%nat (0 :: nil)%nat 1 (0 :: nil)%nat 1 []) (t_Poisson 2)).
      * apply sing. * repeat constructor. * constructor; cbn; auto; repeat constructor; auto. * left; repeat constructor. * now left.
      * apply (tb_outer ((1 :: nil)%nat, []) (2 :: nil)%nat). apply o_Poisson; [repeat constructor|lia].
Qed.
Theorem C77_broadcast_dim_refuted : forall theta lambda, 0 < theta -> 0 <= lambda ->
  at_res (t_grad (loglik (e_Finite obs10) smoothed) [vec1 theta; vec1 lambda] 0) (0 :: nil)%nat [] [] [] = / (theta + 1) - / (theta + 1 + (theta + lambda)) /\
  is_derive (fun t => at_res (t_call (loglik (e_Finite obs10) smoothed) [vec1 t; vec1 lambda]) [] [] [] []) theta
    (/ (theta + 1) - 2 * / (theta + 1 + (theta + lambda))).
Proof. intros a b Ha Hb. exact (conj (smoothed_grad a b Ha Hb) (smoothed_derivative a b Ha Hb)). Qed.
Print Assumptions C77_broadcast_dim_refuted.
Example C77_broadcast_dim_nonvacuous :
  model_for smooth_pars ((1 :: nil)%nat, (2 :: nil)%nat) anyP smoothed /\ is_data ((1 :: nil)%nat, (2 :: nil)%nat) obs10 /\
  at_res (t_grad (loglik (e_Finite obs10) smoothed) [vec1 1; vec1 0] 0) (0 :: nil)%nat [] [] [] = 1 / 6 /\
  is_derive (fun t => at_res (t_call (loglik (e_Finite obs10) smoothed) [vec1 t; vec1 0]) [] [] [] []) 1 (- (1 / 6)).
Proof.
  destruct smoothed_model as [M Dt]. split; [exact M|]. split; [exact Dt|]. destruct (C77_broadcast_dim_refuted 1 0 ltac:(lra) ltac:(lra)) as [A B].
  split; [rewrite A; field|]. replace (- (1 / 6)) with (/ (1 + 1) - 2 * / (1 + 1 + (1 + 0))) by field. exact B.
Qed.
Print Assumptions C77_broadcast_dim_nonvacuous.
