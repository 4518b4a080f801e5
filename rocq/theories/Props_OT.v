(** C78: the objective of a MaxLike object, its flat gradient and flat Hessian,
    computed with Tensors. *)
From Verif Require Import Prelude DenseModel AnalyticSpec NDArray NDProofs TensorModel TensorSpec TensorUfunc FuncModel FuncSpec FTModel FTSpec FTRep FTBuilt LTModel LTLik LTSpec LTDer ParamModel AssembleModel AssembleSpec OTModel OTSpec OTQuad DenseProofs OTLin OTThm Props_FT Props_LT.
From Coquelicot Require Import Coquelicot.
From Coq Require Import Reals Lra Sorted.
Import List ListNotations.
Open Scope R_scope.
#[local] Existing Instance loose.

(** maxlike_base.py:94-104 *)
Theorem C78_objective : forall params D m like cons regs dat, params_ok params -> ml_object (axes params) D m like cons regs ->
  D (map arr_of params) -> posl (flat dat) -> flat dat <> [] -> is_data dat (m_N m) ->
  let total := over dat (cell (m_N m)) in
  (total <> 0 -> objective m params = Ok (penalized like regs (map arr_of params) / total)) /\
  (total = 0 -> objective m params = Raise ZeroDivisionError).
Proof. intros params D m like cons regs dat PO M. exact (objective_ok params PO D m like cons regs M dat). Qed.
Print Assumptions C78_objective.
(** maxlike_base.py:321-343 *)
Theorem C78_flat_gradient : forall params D m like cons regs, params_ok params -> ml_object (axes params) D m like cons regs -> inside D params ->
  let nf := length (free_coords params) in let nc := length cons in
  exists G, flat_grad_t m params = Ok G /\ length G = (nf + nc)%nat /\
  (forall k i a, nth_error (free_coords params) k = Some (i, a) ->
     is_derive (fun t => penalized like regs (map arr_of (set_entry params i a t))) (entry_of params i a) (nth k G 0)) /\
  (forall k c, nth_error cons k = Some c -> nth (nf + k) G 0 = term_at (map arr_of params) c).
Proof. intros params D m like cons regs PO M Ins. exact (flat_grad_ok params PO D m like cons regs M Ins). Qed.
Print Assumptions C78_flat_gradient.
(** maxlike_base.py:345-416 *)
Theorem C78_flat_hessian : forall params D m like cons regs, params_ok params -> ml_object (axes params) D m like cons regs -> inside D params ->
  let nf := length (free_coords params) in let nc := length cons in
  exists H, flat_hess_t m params = Ok H /\ length H = (nf + nc)%nat /\ (forall k, (k < nf + nc)%nat -> length (nth k H []) = (nf + nc)%nat) /\
  (forall k l j b, (k < nf + nc)%nat -> nth_error (free_coords params) l = Some (j, b) ->
     is_derive (fun t => nth k (got [] (flat_grad_t m (set_entry params j b t))) 0) (entry_of params j b) (nth l (nth k H []) 0)) /\
  (forall k l, (k < nf + nc)%nat -> (l < nf + nc)%nat -> nth l (nth k H []) 0 = nth k (nth l H []) 0) /\
  (forall k l, (nf <= k < nf + nc)%nat -> (nf <= l < nf + nc)%nat -> nth l (nth k H []) 0 = 0).
Proof. intros params D m like cons regs PO M Ins. exact (flat_hess_ok params PO D m like cons regs M Ins). Qed.
Print Assumptions C78_flat_hessian.
(** func.py:29-51 *)
Theorem C78_quadratic : forall ss u s, Forall (fun p => posl (flat p)) ss -> s <> 0 ->
  penalty ss anyP (t_Quadratic u s) (fun ps => over_params ss (fun i x => ((par_entry ps i x - u) / s) ^ 2)).
Proof. intros ss u s P H. exact (Quadratic_penalty ss P u s H). Qed.
Print Assumptions C78_quadratic.
(** func.py:6-26 *)
Theorem C78_linear : forall ss ws, Forall (fun p => posl (flat p)) ss -> length ws = length ss ->
  constraint ss arrays (t_Linear ws) (fun ps => over_params ss (fun i x => nth i ws 0 * par_entry ps i x)) (fun _ i _ => nth i ws 0).
Proof. intros ss ws P H. exact (Linear_constraint ss P ws H). Qed.
Print Assumptions C78_linear.

(** Poisson regression of a 2 x 3 table on row effects, whose sum is fixed to 0, and
    column effects, with a quadratic penalty on all of them *)
Definition effects (r0 r1 c0 c1 c2 : R) : list (param R) :=
  mkParam (2 :: nil)%nat [r0; r1] [false; false] :: mkParam (3 :: nil)%nat [c0; c1; c2] [false; true; false] :: nil.
Definition anova (gammaln : R -> R) (X N : nat -> nat -> R) : mlobj :=
  mkML (e_Poisson gammaln (table23 X) (table23 N)) linear2 (table23 N) (((0 :: nil)%nat, t_Linear (1 :: nil)) :: nil) (([0; 1]%nat, t_Quadratic 0 1) :: nil).
Definition sum_zero : term := mkTerm (0 :: nil)%nat (t_Linear (1 :: nil)) arrays
  (fun ps => over_params (((2 :: nil)%nat, []) :: nil) (fun i x => nth i (1 :: nil) 0 * par_entry ps i x)) (fun _ i _ => nth i (1 :: nil) 0).
Definition ridge : term := mkTerm [0; 1]%nat (t_Quadratic 0 1) anyP
  (fun ps => over_params two_axes (fun i x => ((par_entry ps i x - 0) / 1) ^ 2)) (fun _ _ _ => 0).
Definition poisson_like gammaln X N (ps : list pval) : R :=
  over ([2; 3]%nat, []) (fun n d => cell (table23 X) n d * fitted linear2 ps n d - cell (table23 N) n d * exp (fitted linear2 ps n d) - gammaln (cell (table23 X) n d + 1)).
Lemma likelihood_weaken ss (D D' : list pval -> Prop) e f like : (forall ps, D' ps -> D ps) -> likelihood_is ss D e f like -> likelihood_is ss D' e f like.
Proof.
  intros H [L1 L2 L3 [T1 T2 T3 T4]]. constructor; auto. constructor.
  - intros ps A Dp. apply T1; auto.
  - intros c v t C L. apply T2; auto. eapply filter_imp; [|exact L]. intros s. apply H.
  - intros c v t C L. apply T3; auto. eapply filter_imp; [|exact L]. intros s. apply H.
  - intros ps i x y n d A Dp. apply T4; auto.
Qed.
Lemma anova_object g X N r0 r1 c0 c1 c2 : params_ok (effects r0 r1 c0 c1 c2) /\
  ml_object (axes (effects r0 r1 c0 c1 c2)) arrays (anova g X N) (poisson_like g X N) (sum_zero :: nil) (ridge :: nil).
Proof.
  split; [split; [repeat constructor|discriminate]|]. constructor.
  - apply (likelihood_weaken _ anyP); [intros; exact I|]. exact (C76_poisson _ _ _ _ _ _ g linear2_model (table23_data X) (table23_data N)).
  - reflexivity.
  - reflexivity.
  - intros c [<-|[<-|[]]]; (split; [discriminate|]; split; [repeat constructor|]; split; [cbn; repeat constructor|]).
    + intros ps A Ar. constructor; [|constructor]. unfold arrays in Ar. rewrite Forall_forall in Ar. apply Ar, nth_In. rewrite (DenseProofs.Forall2_length' _ _ _ A). cbn. lia.
    + intros ps A Ar. exact I.
  - intros c [<-|[]]. apply (C78_linear (((2 :: nil)%nat, []) :: nil) (1 :: nil)); [repeat constructor|reflexivity].
  - intros c [<-|[]]. apply (C78_quadratic two_axes 0 1); [repeat constructor|lra].
Qed.
Lemma arrays_inside params : inside arrays params.
Proof.
  assert (H : forall q, arrays (map arr_of q)) by (intros q; apply Forall_forall; intros p Hp; apply in_map_iff in Hp as (x & <- & _); eexists; reflexivity).
  split; [apply H|]. intros i a _ _. apply filter_forall. intros t. apply H.
Qed.

Example C78_nonvacuous : forall g X N r0 r1 c0 c1 c2, let params := effects r0 r1 c0 c1 c2 in
  free_coords params = [(0, 0); (0, 1); (1, 0); (1, 2)]%nat /\
  (exists G, flat_grad_t (anova g X N) params = Ok G /\ length G = 5%nat /\ nth 4 G 0 = r0 + r1 /\
     is_derive (fun t => penalized (poisson_like g X N) (ridge :: nil) (map arr_of (effects r0 r1 c0 c1 t))) c2 (nth 3 G 0)) /\
  (exists H, flat_hess_t (anova g X N) params = Ok H /\ length H = 5%nat /\ nth 4 (nth 4 H []) 0 = 0 /\
     is_derive (fun t => nth 4 (got [] (flat_grad_t (anova g X N) (effects t r1 c0 c1 c2))) 0) r0 (nth 0 (nth 4 H []) 0)) /\
  term_at (map arr_of params) ridge = r0 ^ 2 + r1 ^ 2 + c0 ^ 2 + c1 ^ 2 + c2 ^ 2.
Proof.
  intros g X N r0 r1 c0 c1 c2 params. destruct (anova_object g X N r0 r1 c0 c1 c2) as [PO M]. fold params in PO, M. split; [reflexivity|]. split; [|split].
  - destruct (C78_flat_gradient params arrays _ _ _ _ PO M (arrays_inside params)) as (G & EG & LG & DG & CG). exists G. split; [exact EG|]. split; [exact LG|]. split.
    + transitivity (term_at (map arr_of params) sum_zero); [exact (CG 0%nat sum_zero eq_refl)|]. cbv -[Rplus Rmult IZR]. ring.
    + exact (DG 3%nat 1%nat 2%nat eq_refl).
  - destruct (C78_flat_hessian params arrays _ _ _ _ PO M (arrays_inside params)) as (H & EH & LH & _ & DH & _ & ZH). exists H. split; [exact EH|]. split; [exact LH|]. split.
    + apply (ZH 4%nat 4%nat); cbn; lia.
    + exact (DH 4%nat 0%nat 0%nat 0%nat ltac:(cbn; lia) eq_refl).
  - unfold term_at, over_params, Rsum. cbn. field.
Qed.
Print Assumptions C78_nonvacuous.
