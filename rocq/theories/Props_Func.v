(** Properties C25-C33 and C68 (maxlike/func).  correct, grad_correct,
    hess_correct, eval_agrees, smooth_curve, pairing: FuncSpec; typed, value,
    gradient, hessian, drift: FlattenSpec; built: FuncBuilt. *)
From Verif Require Import Prelude DenseModel FuncModel AnalyticSpec FuncSpec DenseProofs FuncLemmas FuncAffine FuncSum FuncWrapP FuncCompose FuncProduct FuncPrim FuncCollapse FuncBuilt FuncFindings FlattenModel FlattenSpec FlattenProofs FlattenSum FlattenAdd FlattenTop FlattenTyped FlattenMain.
From Coquelicot Require Import Coquelicot.
From Coq Require Import Reals Lra Sorted.
Import List ListNotations.
Open Scope R_scope.

(** *** C25: primitive functions.  [correct ss out D f]: called with parameters of
    shapes [ss] in [D], f gives a value of shape [out], grad is its derivative and
    hess the (symmetric) derivative of grad, along every differentiable curve. *)
Theorem C25_X : forall sh, correct ((sh, []) :: nil) (sh, []) everywhere s_X.
Proof. exact X_correct. Qed.
Theorem C25_Exp : forall s, correct (s :: nil) s everywhere s_Exp.
Proof. exact Exp_correct. Qed.
Theorem C25_Log : forall s, correct (s :: nil) s (FuncPrim.positive s) s_Log.
Proof. exact Log_correct. Qed.
Theorem C25_Logistic : forall sh, correct ((sh, []) :: nil) (sh, []) everywhere s_Logistic.
Proof. exact Logistic_correct. Qed.
Theorem C25_ArcTan : forall sh, correct ((sh, []) :: nil) (sh, []) everywhere s_ArcTan.
Proof. exact ArcTan_correct. Qed.
Theorem C25_Sigmoid_arctan : forall sh, correct ((sh, []) :: nil) (sh, []) everywhere s_SigmoidArctan.
Proof. exact SigmoidArctan_correct. Qed.
Theorem C25_Scalar : correct (([], []) :: nil) ([], []) everywhere s_Scalar.
Proof. exact Scalar_correct. Qed.
Theorem C25_Vector : forall sh V, correct (([], []) :: nil) (sh, []) everywhere (s_Vector sh V).
Proof. exact Vector_correct. Qed.
Theorem C25_Constant : forall ss sh V, correct ss (sh, []) everywhere (s_Constant sh V).
Proof. exact Constant_correct. Qed.
Theorem C25_Quadratic : forall u s ss, s <> 0 -> correct ss ([], []) everywhere (s_Quadratic u s).
Proof. exact Quadratic_correct. Qed.
Theorem C25_Linear : forall ws ss, length ws = length ss ->
  grad_correct ss ([], []) everywhere (s_Linear ws) /\ hess_correct ss ([], []) everywhere (s_Linear ws).
Proof. intros ws ss H. split; [now apply Linear_grad|now apply Linear_hess]. Qed.
Theorem C25_Poisson : forall size s, correct (s :: nil) (flat s, size :: nil) everywhere (s_Poisson size).
Proof. exact Poisson_correct. Qed.
Theorem C25_LogNegativeBinomial : forall gammaln size r s, 0 < r ->
  correct (s :: nil) (flat s, size :: nil) (FuncPrim.positive s) (s_LogNegativeBinomial gammaln size r).
Proof. exact LNB_correct. Qed.
Theorem C25_NegativeBinomial : forall gammaln size r s, 0 < r ->
  correct (s :: nil) (flat s, size :: nil) (FuncPrim.positive s) (s_NegativeBinomial gammaln size r).
Proof. intros gl size r s Hr. apply (built_ok _ _ _ _ (NB_built gl size r s Hr)). Qed.
Print Assumptions C25_X. Print Assumptions C25_Exp. Print Assumptions C25_Log. Print Assumptions C25_Logistic.
Print Assumptions C25_ArcTan. Print Assumptions C25_Sigmoid_arctan. Print Assumptions C25_Scalar. Print Assumptions C25_Vector.
Print Assumptions C25_Constant. Print Assumptions C25_Quadratic. Print Assumptions C25_Linear. Print Assumptions C25_Poisson.
Print Assumptions C25_LogNegativeBinomial. Print Assumptions C25_NegativeBinomial.
(** A parameter with a feature and a dim axis, moving in one entry. *)
Definition moving (s : R) : dt :=
  DT [] [] (2%nat :: nil) (2%nat :: nil) (fun _ _ n d => if eqb_idx (n ++ d) [1%nat; 0%nat] then s else 3).
Example C25_nonvacuous :
  smooth_curve (((2%nat :: nil), (2%nat :: nil)) :: nil) (fun s => moving s :: nil) (fun _ x => if eqb_idx x [1%nat; 0%nat] then 1 else 0) 5 /\
  get (val (f_call s_Exp (moving 5 :: nil))) [] [] (1%nat :: nil) (0%nat :: nil) = exp 5 /\
  get (val (f_grad s_Exp (moving 5 :: nil) 0)) [1%nat; 0%nat] [] (1%nat :: nil) (0%nat :: nil) = exp 5 /\
  get (val (f_grad s_Exp (moving 5 :: nil) 0)) [1%nat; 1%nat] [] (1%nat :: nil) (0%nat :: nil) = 0 /\
  FuncPrim.positive ((2%nat :: nil), (2%nat :: nil)) (moving 5 :: nil) /\
  get (val (f_call (s_Poisson 3) (dconst 2 :: nil))) [] [] [] (2%nat :: nil) = 2 /\
  get (val (f_grad (s_Poisson 3) (dconst 2 :: nil) 0)) [] [] [] (2%nat :: nil) = 2.
Proof.
  split; [|split; [|split; [|split; [|split; [|split]]]]].
  - split; [intros; repeat constructor|]. intros [|i] x Hi Hx; [|cbn in Hi; lia].
    cbn in Hx. repeat (destruct Hx as [<-|Hx]; [cbn; first [apply (D_const 3)|apply D_id]|]). destruct Hx.
  - reflexivity.
  - reflexivity.
  - reflexivity.
  - intros x Hx. cbn in Hx. repeat (destruct Hx as [<-|Hx]; [cbn; lra|]). destruct Hx.
  - cbn. unfold pois_row. cbn. field.
  - cbn. unfold pois_row. cbn. field.
Qed.

(** *** C26: operators.  [e]: any function object that is not an Affine (an Affine is
    itself a sequence of operators applied to one); [ops]: any sequence of operators. *)
Theorem C26_arithmetic : forall ss out e ops ps, not_affine e ->
  wellformed ss out (den e) -> hess_both ss out (den e) -> has_sts ps ss ->
  let f := fold_left apply_op ops e in
  (forall n d, value f ps n d = fold_left op_num ops (value e ps n d)) /\
  (forall i x n d, (i < length ss)%nat -> gradient f ps i x n d = fold_left op_slope ops (gradient e ps i x n d)) /\
  (forall i j x y n d, (i < length ss)%nat -> (j < length ss)%nat ->
     hessian f ps i j x y n d = fold_left op_slope ops (hessian e ps i j x y n d)).
Proof. exact operators_meaning. Qed.
Theorem C26_derivatives : forall ss out D e ops, not_affine e -> correct ss out D (den e) ->
  correct ss out D (den (fold_left apply_op ops e)).
Proof. exact operators_correct. Qed.
Theorem C26_eval : forall ss out e ops, not_affine e -> wellformed ss out (den e) -> eval_agrees ss out (den e) ->
  eval_agrees ss out (den (fold_left apply_op ops e)).
Proof. exact operators_eval. Qed.
Print Assumptions C26_arithmetic. Print Assumptions C26_derivatives. Print Assumptions C26_eval.
Example C26_nonvacuous :
  (* 3 - (x + 1) * 2 at x = 5, collapsed into one Affine *)
  let f := fold_left apply_op [FAdd 1; FMul 2; FRSub 3] (ELeaf s_X) in
  (exists a b, f = EAffine (ELeaf s_X) a b) /\ value f (dconst 5 :: nil) [] [] = -9 /\
  not_affine (ELeaf s_X) /\ wellformed (([], []) :: nil) ([], []) s_X /\ hess_both (([], []) :: nil) ([], []) s_X /\ eval_agrees (([], []) :: nil) ([], []) s_X.
Proof.
  cbv zeta. split; [eexists _, _; reflexivity|]. split; [cbn; ring|]. split; [exact I|]. destruct (built_ok _ _ _ _ (b_X [])) as (C & B & E).
  split; [apply C|]. auto.
Qed.

(** *** C27: Sum *)
Theorem C27_sum : forall ss atoms b os D,
  Forall2 (fun p o => correct ss o D (snd p)) atoms os -> broadcastable os -> correct ss (join os) D (s_sum atoms b).
Proof.
  intros ss atoms b os D C Bc. apply sum_correct; auto. eapply Forall2_impl_in; [exact C|]. intros p o _ _ Cp. apply Cp.
Qed.
(** a term contributes to the gradient of parameter i only if i is in its param_map *)
Theorem C27_absent : forall ss w f i ps, Forall (fun k => k < length ss)%nat (w_pm w) -> has_sts ps ss -> ~ In i (w_pm w) ->
  exists z, f_grad (s_wrap w f) ps i = Ok z /\ isnil z.
Proof.
  intros ss w f i ps Hb H Ni. cbn [f_grad s_wrap]. exists dzero. split; [|apply isnil_zero]. destruct (f_nullg f); [reflexivity|].
  unfold wrap_grad. rewrite (imap_ok ss w Hb ps H). cbn [rbind]. unfold rindex.
  destruct (index_of i (w_pm w)) as [k|] eqn:E; [|reflexivity]. apply index_of_lt in E as [E1 E2].
  exfalso. apply Ni. rewrite <- E2. now apply nth_In.
Qed.
Print Assumptions C27_sum. Print Assumptions C27_absent.
Example C27_nonvacuous :
  built [(3%nat :: nil, []); (4%nat :: nil, [])] ([3%nat; 4%nat], []) everywhere grid /\
  get (val (f_call grid [darr (3%nat :: nil) (fun i => 10 * INR (nth 0 i 0%nat)); darr (4%nat :: nil) (fun i => INR (nth 0 i 0%nat))])) [] [] [2%nat; 3%nat] [] = 23.
Proof. split; [apply grid_built; lia|]. cbn. lra. Qed.

(** *** C28: Product *)
Theorem C28_product : forall ss atoms os D, atoms <> [] ->
  Forall2 (fun f o => correct ss o D f) atoms os -> broadcastable os -> correct ss (join os) D (s_product atoms).
Proof.
  intros ss atoms os D Hne C Bc. pose proof (Forall2_length' _ _ _ C) as L. apply product_correct; auto.
  - eapply Forall2_impl_in; [exact C|]. intros p o _ _ Cp. apply Cp.
  - intros k Hk. apply (Forall2_nth (fun f o => correct ss o D f) atoms os k fnull ([], []) C Hk).
Qed.
Print Assumptions C28_product.
(** f(a, b, c)[i, j] = (a + b) * exp c, on three scalar parameters *)
Definition prod3 : sfun := s_product [s_wrap (mkW [0%nat; 1%nat] [] 0 [] 0 []) two_scalars; s_wrap (mkW (2%nat :: nil) [] 0 [] 0 []) s_Exp].
Example C28_nonvacuous :
  built [scalar; scalar; scalar] scalar everywhere prod3 /\
  hess_at prod3 [dconst 2; dconst 3; dconst 0] 2 0 [] [] [] [] = exp 0 /\
  hess_at prod3 [dconst 2; dconst 3; dconst 0] 2 2 [] [] [] [] = 5 * exp 0.
Proof.
  split; [|split; cbn; ring].
  apply (b_product [scalar; scalar; scalar] _ [scalar; scalar] everywhere); [reflexivity|repeat constructor|discriminate|].
  intros [|[|k]] Hk; [| |cbn in Hk; lia]; cbn [nth].
  - apply (b_domain _ _ (fun ps => everywhere (map (fun i => nth i ps dzero) [0%nat; 1%nat]))); [intros; exact I|].
    apply (b_wrap [scalar; scalar; scalar] scalar (mkW [0%nat; 1%nat] [] 0 [] 0 []) everywhere two_scalars).
    + repeat constructor; cbn; intuition lia.
    + repeat constructor.
    + constructor; cbn; auto using NoDup_nil.
    + left. repeat constructor.
    + exact two_scalars_built.
  - apply (b_domain _ _ (fun ps => everywhere (map (fun i => nth i ps dzero) (2%nat :: nil)))); [intros; exact I|].
    apply (b_wrap [scalar; scalar; scalar] scalar (mkW (2%nat :: nil) [] 0 [] 0 []) everywhere s_Exp).
    + repeat constructor; cbn; intuition lia.
    + repeat constructor.
    + constructor; cbn; auto using NoDup_nil.
    + left. repeat constructor.
    + apply b_Exp.
Qed.

(** *** C29: Compose *)
Theorem C29_chain_rule : forall ss os out f gs Df Dg,
  correct os out Df f -> Forall2 (fun g o => correct ss o Dg g) gs os ->
  correct ss out (fun ps => Df (map (fun g => val (f_call g ps)) gs) /\ Dg ps) (s_compose f gs).
Proof.
  intros ss os out f gs Df Dg Cf C. apply (compose_correct ss os out f gs); auto.
  - apply Cf.
  - eapply Forall2_impl_in; [exact C|]. intros p o _ _ Cp. apply Cp.
  - intros k Hk. apply (Forall2_nth (fun f o => correct ss o Dg f) gs os k fnull ([], []) C Hk).
Qed.
Print Assumptions C29_chain_rule.
Example C29_nonvacuous :
  (* exp @ (a + b) *)
  correct [scalar; scalar] scalar (fun ps => everywhere (map (fun g => val (f_call g ps)) (two_scalars :: nil)) /\ everywhere ps) (s_compose s_Exp (two_scalars :: nil)) /\
  hess_at (s_compose s_Exp (two_scalars :: nil)) [dconst 1; dconst 2] 1 0 [] [] [] [] = exp 3.
Proof.
  split.
  - apply (C29_chain_rule [scalar; scalar] (scalar :: nil)); [apply Exp_correct|]. constructor; [|constructor]. destruct (built_ok _ _ _ _ two_scalars_built) as (C & _). exact C.
  - cbn. replace (0 + 1 * 1 + 1 * 2 + 0) with 3 by ring. ring.
Qed.

(** *** C30: FuncWrap *)
Theorem C30_reindexed : forall ss nf nd m o f, maps_ok ss nf nd m o ->
  wellformed (sel ss (m_pm m)) o f -> hess_both (sel ss (m_pm m)) o f ->
  forall ps, has_sts ps ss ->
  let F := ELeaf (s_wrap (mkw nf nd m) f) in let qs := map (fun k => nth k ps dzero) (m_pm m) in
  (forall n d, value F ps n d = value (ELeaf f) qs (pull (m_fm m) n) (pull (m_dm m) d)) /\
  (forall i x n d, (i < length ss)%nat -> gradient F ps i x n d =
     match index_of i (m_pm m) with
     | Some k => gradient (ELeaf f) qs k x (pull (m_fm m) n) (pull (m_dm m) d) | None => 0 end) /\
  (forall i j x y n d, (i < length ss)%nat -> (j < length ss)%nat -> hessian F ps i j x y n d =
     match index_of i (m_pm m), index_of j (m_pm m) with
     | Some k, Some l => hessian (ELeaf f) qs k l x y (pull (m_fm m) n) (pull (m_dm m) d) | _, _ => 0 end).
Proof.
  intros ss nf nd m o f M W B ps H F qs. pose proof (okf_wf _ _ _ W B) as O.
  pose proof (fun mm x y n d => wrap_rd ss nf nd m o f ps mm x y n d M O H) as R.
  split; [|split].
  - intros n d. exact (R MCall [] [] n d I).
  - intros i x n d Hi. pose proof (R (MGrad i) x [] n d Hi) as Q. cbn [mmap] in Q. unfold rd in Q. cbn [ask] in Q. unfold F, gradient. cbn [den]. rewrite Q.
    destruct (index_of i (m_pm m)); reflexivity.
  - intros i j x y n d Hi Hj. pose proof (R (MHess i j) x y n d (conj Hi Hj)) as Q. cbn [mmap] in Q. unfold rd in Q. cbn [ask] in Q. unfold F, hessian. cbn [den]. rewrite Q.
    destruct (index_of i (m_pm m)); [destruct (index_of j (m_pm m))|]; reflexivity.
Qed.
(** derivatives stay right, feat_flip included *)
Theorem C30_derivatives : forall ss o w f D, NoDup (w_pm w) -> Forall (fun i => i < length ss)%nat (w_pm w) -> wmap_ok w o ->
  hess_both (map (fun i => nth i ss ([], [])) (w_pm w)) o f -> correct (map (fun i => nth i ss ([], [])) (w_pm w)) o D f ->
  correct ss (w_out w o) (fun ps => D (map (fun i => nth i ps dzero) (w_pm w))) (s_wrap w f).
Proof. intros ss o w f D H1 H2 H3 B C. apply wrap_correct; auto. now right. Qed.
(** with a repeated parameter they are wrong: f(a, b) = a + b wrapped as f(a, a) *)
Theorem C30_repeated_parameter_refuted :
  (exists D, correct [scalar; scalar] scalar D two_scalars /\ forall ps, D ps) /\
  w_pm repeated = [0%nat; 0%nat] /\ ~ grad_correct (scalar :: nil) scalar everywhere (s_wrap repeated two_scalars).
Proof.
  split; [|split; [reflexivity|exact repeated_wrong]]. exists everywhere. split; [|intros; exact I]. apply (built_ok _ _ _ _ two_scalars_built).
Qed.
Print Assumptions C30_reindexed. Print Assumptions C30_derivatives. Print Assumptions C30_repeated_parameter_refuted.
Example C30_nonvacuous :
  (* X as a function of parameter 1 of 2, on feature 1 of 2 *)
  let m := mkM (1%nat :: nil) (1%nat :: nil) [] in
  maps_ok [scalar; (4%nat :: nil, [])] 2 0 m (4%nat :: nil, []) /\
  value (ELeaf (s_wrap (mkw 2 0 m) s_X)) [dconst 0; darr (4%nat :: nil) (fun i => INR (nth 0 i 0%nat))] [7%nat; 3%nat] [] = 3.
Proof.
  cbv zeta. split.
  - split; [repeat constructor; intros []|]. split; [repeat constructor|]. constructor; cbn; repeat constructor; auto.
  - cbn. lra.
Qed.

(** *** C31: eval *)
Theorem C31_eval : forall ss out D f, built ss out D f -> eval_agrees ss out f.
Proof. intros ss out D f H. apply (built_ok _ _ _ _ H). Qed.
(** and the derivatives of everything built are right *)
Theorem C31_built_correct : forall ss out D f, built ss out D f -> correct ss out D f /\ hess_both ss out f.
Proof. intros ss out D f H. destruct (built_ok _ _ _ _ H) as (C & B & _). auto. Qed.
(** a Sum with an offset: eval leaves the offset out *)
Theorem C31_sum_offset_refuted : forall ss atoms os b,
  Forall2 (fun p o => wellformed ss o (snd p)) atoms os -> broadcastable os ->
  Forall2 (fun p o => eval_agrees ss o (snd p)) atoms os ->
  forall ps, has_sts ps ss -> exists v gs hs, f_eval (s_sum atoms b) ps = Ok (v, gs, hs) /\
    forall n d, get (val (f_call (s_sum atoms b) ps)) [] [] n d = get v [] [] n d + b.
Proof. exact sum_offset_lost. Qed.
(** a param_map that is not ascending: eval raises *)
Theorem C31_descending_refuted : forall ss o w f p q, f_nullh f = false ->
  NoDup (w_pm w) -> Forall (fun i => i < length ss)%nat (w_pm w) ->
  eval_agrees (map (fun i => nth i ss ([], [])) (w_pm w)) o f ->
  (p < q < length (w_pm w))%nat -> (nth q (w_pm w) 0 < nth p (w_pm w) 0)%nat ->
  forall ps, has_sts ps ss -> f_eval (s_wrap w f) ps = Raise IndexError.
Proof. exact wrap_descending. Qed.
Print Assumptions C31_eval. Print Assumptions C31_built_correct. Print Assumptions C31_sum_offset_refuted. Print Assumptions C31_descending_refuted.
Example C31_nonvacuous :
  (exists v gs hs, f_eval prod3 [dconst 2; dconst 3; dconst 0] = Ok (v, gs, hs) /\ get v [] [] [] [] = 5 * exp 0 /\ length hs = 3%nat) /\
  f_eval (s_wrap (mkW [1%nat; 0%nat] [] 0 [] 0 []) two_scalars) [dconst 2; dconst 3] = Raise IndexError /\
  f_nullh two_scalars = false /\ eval_agrees [scalar; scalar] scalar two_scalars.
Proof.
  split; [|split; [reflexivity|split; [reflexivity|apply (built_ok _ _ _ _ two_scalars_built)]]].
  eexists _, _, _. split; [reflexivity|]. split; [cbn; ring|reflexivity].
Qed.

(** *** C32: Sum.add.  The hypothesis: the Sum with foo as one more term makes sense. *)
Theorem C32_sum_add : forall foo ss m w nf nd b atoms out,
  typed (ESum nf nd b (atoms ++ ((w, m, foo) :: nil))) ss out ->
  exists S', sum_add foo (mkSum nf nd b atoms) m w = Ok S' /\
    typed (sum_expr S') ss out /\ callable (sum_expr S') ss /\
    forall ps, has_sts ps ss -> let qs := map (fun k => nth k ps dzero) (m_pm m) in
      (forall n d, value (sum_expr S') ps n d =
         value (ESum nf nd b atoms) ps n d + w * value foo qs (pull (m_fm m) n) (pull (m_dm m) d) + drift w foo) /\
      (forall i x n d, (i < length ss)%nat -> gradient (sum_expr S') ps i x n d =
         gradient (ESum nf nd b atoms) ps i x n d +
         match index_of i (m_pm m) with
         | Some k => w * gradient foo qs k x (pull (m_fm m) n) (pull (m_dm m) d)
         | None => 0
         end) /\
      (forall i j x y n d, (i < length ss)%nat -> (j < length ss)%nat -> hessian (sum_expr S') ps i j x y n d =
         hessian (ESum nf nd b atoms) ps i j x y n d +
         match index_of i (m_pm m), index_of j (m_pm m) with
         | Some k, Some l => w * hessian foo qs k l x y (pull (m_fm m) n) (pull (m_dm m) d)
         | _, _ => 0
         end).
Proof. exact sum_add_meaning. Qed.
Theorem C32_no_drift : forall w foo, no_offset foo \/ (w = 1 /\ unit_weights foo) -> drift w foo = 0.
Proof. intros w foo [H|[-> H]]; [now apply no_drift_offset|now apply no_drift_unit]. Qed.
(** one offset b in foo shows up as b instead of w * b *)
Theorem C32_drift_refuted : forall w base a b, no_offset base -> drift w (EAffine base a b) = b - w * b.
Proof. intros w base a b H. cbn [drift]. rewrite no_drift_offset by auto. ring. Qed.
Print Assumptions C32_sum_add. Print Assumptions C32_no_drift. Print Assumptions C32_drift_refuted.
Lemma X_typed : typed (ELeaf s_X) (scalar :: nil) scalar.
Proof. destruct (built_ok _ _ _ _ (b_X [])) as (C & B & _). split; [apply C|exact B]. Qed.
Lemma id_maps (s : pst) : s = scalar -> maps_ok (s :: nil) 0 0 (mkM (0%nat :: nil) [] []) scalar.
Proof. intros ->. split; [repeat constructor; intros []|]. split; [repeat constructor|]. constructor; cbn; auto using NoDup_nil. Qed.
Example C32_nonvacuous :
  (* Sum().add(X + 5, 0, [], weight=2) at x = 1: 7, not 12 *)
  let foo := EAffine (ELeaf s_X) 1 5 in let m := mkM (0%nat :: nil) [] [] in
  typed (ESum 0 0 0 ([] ++ ((2, m, foo) :: nil))) (scalar :: nil) scalar /\ drift 2 foo = -5 /\
  exists S', sum_add foo (mkSum 0 0 0 []) m 2 = Ok S' /\ value (sum_expr S') (dconst 1 :: nil) [] [] = 7.
Proof.
  cbv zeta. split; [|split; [cbn; ring|eexists; split; [reflexivity|cbn; ring]]].
  exists (scalar :: nil). split; [discriminate|]. split; [|split; [repeat constructor|reflexivity]].
  split; [now apply id_maps|]. split; [exact X_typed|exact I].
Qed.

(** *** C33: Product.add *)
Theorem C33_product_add : forall foo ss m nf nd atoms out, atoms <> [] ->
  typed (EProduct nf nd (atoms ++ ((m, foo) :: nil))) ss out ->
  exists P', prod_add foo (mkProd nf nd atoms) m = Ok P' /\
    typed (prod_expr P') ss out /\ callable (prod_expr P') ss /\
    forall ps i j x y n d, has_sts ps ss -> (i < length ss)%nat -> (j < length ss)%nat ->
      let P := EProduct nf nd atoms in
      value (prod_expr P') ps n d = value P ps n d * factor_value m foo ps n d /\
      gradient (prod_expr P') ps i x n d =
        gradient P ps i x n d * factor_value m foo ps n d + value P ps n d * factor_gradient m foo ps i x n d /\
      hessian (prod_expr P') ps i j x y n d =
        hessian P ps i j x y n d * factor_value m foo ps n d +
        gradient P ps i x n d * factor_gradient m foo ps j y n d +
        gradient P ps j y n d * factor_gradient m foo ps i x n d +
        value P ps n d * factor_hessian m foo ps i j x y n d.
Proof. exact prod_add_meaning. Qed.
Theorem C33_first_factor : forall foo ss m nf nd out,
  typed (EProduct nf nd ((m, foo) :: nil)) ss out ->
  exists P', prod_add foo (mkProd nf nd []) m = Ok P' /\
    typed (prod_expr P') ss out /\ callable (prod_expr P') ss /\
    forall ps i j x y n d, has_sts ps ss -> (i < length ss)%nat -> (j < length ss)%nat ->
      value (prod_expr P') ps n d = factor_value m foo ps n d /\
      gradient (prod_expr P') ps i x n d = factor_gradient m foo ps i x n d /\
      hessian (prod_expr P') ps i j x y n d = factor_hessian m foo ps i j x y n d.
Proof. exact prod_add_first. Qed.
Print Assumptions C33_product_add. Print Assumptions C33_first_factor.
Example C33_nonvacuous :
  (* X * (X * X) on one scalar parameter at x = 2 *)
  let m := mkM (0%nat :: nil) [] [] in let sq := EProduct 0 0 [(m, ELeaf s_X); (m, ELeaf s_X)] in
  typed (EProduct 0 0 (((m, ELeaf s_X) :: nil) ++ ((m, sq) :: nil))) (scalar :: nil) scalar /\
  exists P', prod_add sq (mkProd 0 0 ((m, ELeaf s_X) :: nil)) m = Ok P' /\ length (p_atoms P') = 3%nat /\
    value (prod_expr P') (dconst 2 :: nil) [] [] = 8 /\ gradient (prod_expr P') (dconst 2 :: nil) 0 [] [] [] = 12.
Proof.
  cbv zeta. split.
  - exists [scalar; scalar]. split; [discriminate|]. split; [|split; [repeat constructor|reflexivity]].
    split; [now apply id_maps|]. split; [exact X_typed|]. split; [now apply id_maps|]. split; [|exact I].
    exists [scalar; scalar]. split; [discriminate|]. split; [|split; [repeat constructor|reflexivity]].
    split; [now apply id_maps|]. split; [exact X_typed|]. split; [now apply id_maps|]. split; [exact X_typed|exact I].
  - eexists. split; [reflexivity|]. split; [reflexivity|]. split; cbn; ring.
Qed.

(** *** C68: Collapse *)
Theorem C68_collapse : forall ss out f sv sd D, correct ss out D f -> keeps_axes sv sd ss out f ->
  correct ss (c_out sv sd out) D (s_collapse f sv sd).
Proof. intros ss out f sv sd D C K. apply collapse_correct; auto. apply C. Qed.
(** the condition holds of the entrywise functions, the count distributions and
    their affine images *)
Theorem C68_condition : forall sv sd s size a b gammaln r,
  keeps_axes sv sd (s :: nil) s (s_affine s_Exp a b) /\ keeps_axes sv sd (s :: nil) s (s_affine s_Log a b) /\
  keeps_axes sv sd (s :: nil) (flat s, size :: nil) (s_affine (s_Poisson size) a b) /\
  keeps_axes sv sd (s :: nil) (flat s, size :: nil) (s_affine (s_LogNegativeBinomial gammaln size r) a b).
Proof.
  intros. split; [|split; [|split]].
  - apply keeps_affine; [apply Exp_correct|apply both_1|]. apply keeps_entry. now left.
  - apply keeps_affine; [apply Log_correct|apply both_1|]. apply keeps_entry. now left.
  - apply keeps_affine; [apply Poisson_correct|apply both_1|]. apply keeps_rows.
  - apply keeps_affine; [|apply both_1|]; [|apply keeps_rows]. apply rows_wf.
Qed.
(** without it the gradient is wrong: sum over i, j of p[i] + q[j] *)
Theorem C68_broadcast_refuted :
  (exists D, correct [(1%nat :: nil, []); (2%nat :: nil, [])] ([1%nat; 2%nat], []) D grid /\ forall ps, D ps) /\
  ~ grad_correct [(1%nat :: nil, []); (2%nat :: nil, [])] ([], []) everywhere (s_collapse grid true false).
Proof.
  split; [|exact grid_collapse_wrong]. exists everywhere. split; [|intros; exact I].
  apply (built_ok _ _ _ _ (grid_built 1 2 (le_n 1) (le_S _ _ (le_n 1)))).
Qed.
Print Assumptions C68_collapse. Print Assumptions C68_condition. Print Assumptions C68_broadcast_refuted.
Example C68_nonvacuous :
  keeps_axes true false ((2%nat :: nil, []) :: nil) (2%nat :: nil, []) s_Exp /\
  get (val (f_call (s_collapse s_Exp true false) (darr (2%nat :: nil) (fun i => INR (nth 0 i 0%nat)) :: nil))) [] [] [] [] = exp 0 + exp 1.
Proof. split; [apply keeps_entry; now left|]. cbn. ring. Qed.
