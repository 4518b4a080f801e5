(** C76-: the likelihood classes, computing with Tensors. *)
From Verif Require Import Prelude DenseModel AnalyticSpec NDArray NDProofs TensorModel TensorSpec TensorUfunc FuncModel FuncSpec FTModel FTSpec FTPrim FTWrap FTRep FTBuilt FTFindings LTModel LTPlain LTCell LTEst LTLik LTSpec LTDer LTFindings Props_FT.
From Coquelicot Require Import Coquelicot.
From Coq Require Import Reals Lra.
Import List ListNotations.
Open Scope R_scope.
#[local] Existing Instance loose.

(** *** C76: like, grad_like and hess_like of the likelihood classes *)
Theorem C76_poisson : forall ss dat D f X N gammaln, model_for ss dat D f -> is_data dat X -> is_data dat N ->
  likelihood_right ss dat D (e_Poisson gammaln X N) f
    (fun n d y => cell X n d * y - cell N n d * exp y - gammaln (cell X n d + 1)).
Proof. intros ss dat D f X N g M HX HN. exact (poisson_right ss dat D f (model_dense _ _ _ _ M) X N g HX HN). Qed.
Print Assumptions C76_poisson.
Theorem C76_zero_inflated_poisson : forall ss dat D f X N Z gammaln s, model_for ss dat D f -> is_data dat X -> is_data dat N -> is_data dat Z -> 0 < s ->
  likelihood_right ss dat D (e_ZIP gammaln s X N Z) f
    (fun n d y => cell X n d * y + cell Z n d * ln s - cell N n d * ln (exp (exp y) + s - 1) - gammaln (cell X n d + 1)).
Proof. intros ss dat D f X N Z g s M HX HN HZ. exact (zip_right ss dat D f (model_dense _ _ _ _ M) X N Z g HX HN HZ s). Qed.
Print Assumptions C76_zero_inflated_poisson.
Theorem C76_logistic : forall ss dat D f X N, model_for ss dat D f -> is_data dat X -> is_data dat N ->
  likelihood_right ss dat D (e_Logistic X N) f
    (fun n d y => - (cell N n d * ln (1 + exp (- y)) + (cell N n d - cell X n d) * y)).
Proof. intros ss dat D f X N M HX HN. exact (logistic_right ss dat D f (model_dense _ _ _ _ M) X N HX HN). Qed.
Print Assumptions C76_logistic.
Theorem C76_negative_binomial : forall ss dat D f X N gammaln r, model_for ss dat D f -> is_data dat X -> is_data dat N -> 0 < r ->
  likelihood_right ss dat D (e_NegBin gammaln r X N) f
    (fun n d y => gammaln (cell X n d + r) - gammaln (cell X n d + 1) + r * ln r - gammaln r + cell X n d * y
                  - (cell X n d + r * cell N n d) * ln (r + exp y)).
Proof. intros ss dat D f X N g r M HX HN. exact (negbin_right ss dat D f (model_dense _ _ _ _ M) X N g HX HN r). Qed.
Print Assumptions C76_negative_binomial.
Theorem C76_normalized_finite : forall ss dat D f N, model_for ss dat D f -> is_data dat N ->
  likelihood_right ss dat (fun ps => D ps /\ forall n d, In n (indices (fst dat)) -> In d (indices (snd dat)) -> 0 < fitted f ps n d)
    (e_NormFinite N) f (fun n d y => cell N n d * ln y).
Proof. intros ss dat D f N M HN. exact (normfinite_right ss dat D f (model_dense _ _ _ _ M) N HN). Qed.
Print Assumptions C76_normalized_finite.

(** data: counts in a 2 x 3 table *)
Definition table23 (V : nat -> nat -> R) : pval := PT (mkT (mkA [2; 3]%nat (fun i => V (nth 0 i 0%nat) (nth 1 i 0%nat))) 0 0 2 0 [] []).
Lemma table23_data V : is_data ([2; 3]%nat, []) (table23 V).
Proof. eexists. split; [reflexivity|]. split; [repeat split|]. constructor; cbn; auto; repeat constructor; cbn; lia. Qed.
Lemma ax_refl l : posl l -> ax_le l l.
Proof. induction 1; constructor; auto. Qed.
Lemma linear2_model : model_for two_axes ([2; 3]%nat, []) anyP linear2.
Proof.
  constructor; [|exact pos_two|split; [repeat constructor|discriminate]]. eexists; eexists; eexists. split; [exact linear2_built|].
  split; [intros [|[|i]] Hi; [reflexivity|reflexivity|cbn in Hi; lia]|]. split; [apply ax_refl; repeat constructor|]. split; [constructor|]. reflexivity.
Qed.
Lemma poisson2_model : model_for two_axes ([2; 3]%nat, (4 :: nil)%nat) anyP poisson2.
Proof.
  constructor; [|exact pos_two|split; [repeat constructor|discriminate]]. eexists; eexists; eexists. split; [exact poisson2_built|].
  split; [reflexivity|]. split; [apply ax_refl; repeat constructor|]. split; [apply ax_refl; repeat constructor|]. reflexivity.
Qed.
(** Poisson regression of a 2 x 3 table on row and column effects *)
Example C76_nonvacuous : forall gammaln X N u v,
  is_block (t_call (loglik (e_Poisson gammaln (table23 X) (table23 N)) linear2) [vec 2 u; vec 3 v]) [] []
    (fun _ _ => over ([2; 3]%nat, []) (fun n d => cell (table23 X) n d * fitted linear2 [vec 2 u; vec 3 v] n d
        - cell (table23 N) n d * exp (fitted linear2 [vec 2 u; vec 3 v] n d) - gammaln (cell (table23 X) n d + 1))) /\
  (exists t, t_hess (loglik (e_Poisson gammaln (table23 X) (table23 N)) linear2) [vec 2 u; vec 3 v] 1 0 = Ok (PT t) /\ shp (tv t) = [3; 2]%nat) /\
  cell (table23 X) [1; 2]%nat [] = X 1%nat 2%nat.
Proof.
  intros g X N u v. pose proof (C76_poisson _ _ _ _ _ _ g linear2_model (table23_data X) (table23_data N)) as L. split; [exact (lr_value _ _ _ _ _ L _ (vecs_par u v) I)|]. split; [|cbn; ring].
  destruct (lr_hess _ _ _ _ _ L _ 1 0 (vecs_par u v) I) as (t & Et & _ & _ & _ & Sh & _); [cbn; lia|lia|]. exists t. split; [exact Et|exact Sh].
Qed.
Print Assumptions C76_nonvacuous.

(** a parameter that the model does not use: the block of the gradient is a single
    number whatever the shape of the parameter *)
Theorem C76_unused_parameter_refuted : forall dat X N y gammaln f ps i v, posl (flat dat) -> flat dat <> [] -> is_data dat X -> is_data dat N ->
  t_call f ps = Ok y -> is_data dat y -> (i < length ps)%nat -> t_grad f ps i = Ok tzero ->
  t_grad (loglik (e_Poisson gammaln X N) f) ps i = Ok v -> exists t, v = PT t /\ shp (tv t) = [].
Proof.
  intros dat X N y g f ps i v Hp Hne HX HN Ec Hy Hi Hg E.
  exact (unused_poisson dat Hp Hne X N HX HN g f ps i y _ v Ec (pl_le dat 1 2 y _ ltac:(auto) (data_pl dat y Hy)) Hi Hg E).
Qed.
Print Assumptions C76_unused_parameter_refuted.

Definition one_axis : list pst := (((2 :: nil)%nat, []) :: nil).
Definition row2 (V : nat -> R) : pval := PT (mkT (mkA (2 :: nil)%nat (fun i => V (nth 0 i 0%nat))) 0 0 1 0 [] []).
Lemma row2_data V : is_data ((2 :: nil)%nat, []) (row2 V).
Proof. eexists. split; [reflexivity|]. split; [repeat split|]. constructor; cbn; auto; repeat constructor; cbn; lia. Qed.
Lemma first_model : model_for one_axis ((2 :: nil)%nat, []) anyP first_of_two.
Proof.
  constructor; [|repeat constructor|split; [repeat constructor|discriminate]]. exists ((2 :: nil)%nat, []), (map (fun k => k) (seq 0 1)), (wdep (mkW (0%nat :: nil) (0%nat :: nil) 1 [] 0 []) (fun _ => true)). split.
  - apply (tb_domain _ _ (fun ps => anyP (map (fun k => nth k ps (PNum 0)) (0%nat :: nil)))); [intros; exact I|].
    apply (tb_wrap one_axis ((2 :: nil)%nat, []) anyP (seq 0 1) (fun _ => true) false (mkW (0%nat :: nil) (0%nat :: nil) 1 [] 0 []) t_X).
    * apply sing. * repeat constructor. * apply wok. lia. * left; repeat constructor. * now left. * apply (tb_X (2 :: nil)%nat). repeat constructor.
  - split; [intros [|i] Hi; [reflexivity|cbn in Hi; lia]|]. split; [apply ax_refl; repeat constructor|]. split; [constructor|]. reflexivity.
Qed.
Example C76_unused_nonvacuous : forall gammaln X N u v, exists y t,
  t_call first_of_two [vec 2 u; vec 3 v] = Ok y /\ is_data ((2 :: nil)%nat, []) y /\
  t_grad first_of_two [vec 2 u; vec 3 v] 1 = Ok tzero /\
  t_grad (loglik (e_Poisson gammaln (row2 X) (row2 N)) first_of_two) [vec 2 u; vec 3 v] 1 = Ok (PT t) /\ shp (tv t) = [].
Proof.
  intros g X N u v. destruct (t_call first_of_two [vec 2 u; vec 3 v]) as [y|] eqn:Ec; [|discriminate Ec].
  assert (Hy : is_data ((2 :: nil)%nat, []) y).
  { cbv in Ec. injection Ec as <-. eexists. split; [reflexivity|]. split; [repeat split|]. constructor; cbn; auto; repeat constructor; cbn; lia. }
  assert (G1 : t_grad first_of_two [vec 2 u; vec 3 v] 1 = Ok tzero) by reflexivity.
  exists y. assert (Hp : posl (flat ((2 :: nil)%nat, []))) by (repeat constructor). assert (Hne : flat ((2 :: nil)%nat, []) <> []) by discriminate.
  pose proof (C76_poisson _ _ _ _ _ _ g first_model (row2_data X) (row2_data N)) as L.
  destruct (lr_grad _ _ _ _ _ L (vec 2 u :: nil) 0 ltac:(repeat constructor) I ltac:(cbn; lia)) as (t0 & E0 & _).
  cbn [loglik t_grad] in E0. change (t_call first_of_two (vec 2 u :: nil)) with (t_call first_of_two [vec 2 u; vec 3 v]) in E0. rewrite Ec in E0. cbn [rbind] in E0.
  destruct (t_grad first_of_two [vec 2 u; vec 3 v] 0) as [d0|] eqn:Ed; [|discriminate Ed].
  assert (D1 : ders first_of_two (vec 2 u :: nil) = Ok (d0 :: nil)).
  { unfold ders. cbn [length seq rmapM]. change (t_grad first_of_two (vec 2 u :: nil) 0) with (t_grad first_of_two [vec 2 u; vec 3 v] 0). rewrite Ed. reflexivity. }
  assert (D2 : ders first_of_two [vec 2 u; vec 3 v] = Ok [d0; tzero]).
  { unfold ders. cbn [length seq rmapM]. rewrite Ed. cbn [rbind]. rewrite G1. reflexivity. }
  rewrite D1 in E0. cbn [rbind] in E0. destruct (e_grad (e_Poisson g (row2 X) (row2 N)) y (d0 :: nil)) as [gs|] eqn:Eg; [|discriminate E0].
  pose proof (pl_le ((2 :: nil)%nat, []) 1 2 y _ ltac:(auto) (data_pl _ y Hy)) as Py.
  destruct (unused_returns _ Hp Hne (row2 X) (row2 N) (row2_data X) (row2_data N) g first_of_two _ y _ d0 gs Ec Py D2 Eg) as (w & Ew).
  destruct (C76_unused_parameter_refuted _ _ _ y g first_of_two _ 1 w Hp Hne (row2_data X) (row2_data N) Ec Hy ltac:(cbn; lia) G1 Ew) as (t & -> & Sh).
  exists t. auto.
Qed.
Print Assumptions C76_unused_nonvacuous.
