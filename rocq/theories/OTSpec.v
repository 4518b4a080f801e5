(** What the objective, flat gradient and flat Hessian of a MaxLike object should
    be: the specification used in Props_OT.v. *)
From Verif Require Import Prelude DenseModel AnalyticSpec NDArray TensorModel TensorSpec FuncModel FuncSpec FTModel FTSpec FTBuilt LTModel LTSpec ParamModel AssembleModel AssembleSpec OTModel.
From Coquelicot Require Import Coquelicot.
From Coq Require Import Reals Sorted.
Import List ListNotations.
Open Scope R_scope.

(** axes of the parameters *)
Definition axes (params : list (param R)) : list pst := map (fun p => (p_shape p, [])) params.
(** Param objects built from arrays of positive sizes *)
Definition params_ok (params : list (param R)) : Prop :=
  Forall (fun p => param_wf p /\ Forall (fun s => 1 <= s)%nat (p_shape p)) params /\ params <> [].
(** entry [a] (in C order) of parameter [i], and the parameters with that entry
    replaced by [t] *)
Definition entry_of (params : list (param R)) (i a : nat) : R := nth a (p_vals (nth i params noparam)) 0.
Definition set_entry (params : list (param R)) (i a : nat) (t : R) : list (param R) :=
  let p := nth i params noparam in upd_nth i (mkParam (p_shape p) (upd_nth a t (p_vals p)) (p_mask p)) params.

(** the arguments a function added with [param_map = pm] is called with *)
Definition sel_at {X} (pm : list nat) (d : X) (l : list X) : list X := map (fun k => nth k l d) pm.
Definition sub_axes (pm : list nat) (ss : list pst) : list pst := sel_at pm ([], []) ss.
Definition sub_args (pm : list nat) (ps : list pval) : list pval := sel_at pm (PNum 0) ps.

(** A function of the parameters that can be used as a regularization: one number,
    [value]; gradients and Hessians with the axes of the parameters (a Hessian
    block that vanishes may be Tensor(0)); right derivatives *)
Record penalty (ss : list pst) (D : list pval -> Prop) (h : tfun) (value : list pval -> R) : Prop := mkPen {
  pn_value : forall ps, are_pars ss ps -> D ps -> is_block (t_call h ps) [] [] (fun _ _ => value ps);
  pn_grad : forall ps i, are_pars ss ps -> D ps -> (i < length ss)%nat ->
    is_block (t_grad h ps i) (flat (nth i ss ([], []))) [] (fun x _ => at_res (t_grad h ps i) x [] [] []);
  pn_hess : forall ps i j, are_pars ss ps -> D ps -> (i < length ss)%nat -> (j <= i)%nat ->
    is_block (t_hess h ps i j) (flat (nth i ss ([], []))) (flat (nth j ss ([], []))) (fun x y => at_res (t_hess h ps i j) x y [] []) \/
    t_hess h ps i j = Ok tzero;
  pn_derivatives : t_correct ss ([], []) D h }.
(** One that can be used as a constraint: a number or a Tensor holding one number,
    [value]; Tensors as gradients and Hessians, such that the gradient summed over
    its features is the derivative [deriv] of the value: an array with the axes of
    the parameter or with all axes of size 1 *)
Record constraint (ss : list pst) (D : list pval -> Prop) (g : tfun) (value : list pval -> R) (deriv : list pval -> nat -> idx -> R) : Prop := mkCon {
  cn_value : forall ps, are_pars ss ps -> D ps -> exists v, t_call g ps = Ok v /\ pyfloat v = Ok (value ps);
  cn_grad : forall ps i, are_pars ss ps -> D ps -> (i < length ss)%nat -> exists t s,
    t_grad g ps i = Ok (PT t) /\ ssum (PT t) = Ok (PT s) /\
    let sh := flat (nth i ss ([], [])) in
    (shp (tv s) = sh \/ shp (tv s) = repeat 1%nat (length sh)) /\
    forall x, In x (indices sh) -> el (tv s) (clamp (shp (tv s)) x) = deriv ps i x;
  cn_hess : forall ps i j, are_pars ss ps -> D ps -> (i < length ss)%nat -> (j <= i)%nat -> exists t, t_hess g ps i j = Ok (PT t);
  cn_derivative : forall c v t, par_curve ss c v t -> locally t (fun s => D (c s)) ->
    is_derive (fun s => value (c s)) t (pairing ss (deriv (c t)) v) }.

(** a constraint or regularization with what it computes *)
Record term := mkTerm { tm_map : list nat; tm_fun : tfun; tm_dom : list pval -> Prop; tm_val : list pval -> R; tm_der : list pval -> nat -> idx -> R }.
Definition registration (c : term) : list nat * tfun := (tm_map c, tm_fun c).

(** A MaxLike object with log-likelihood [like], constraints [cons],
    regularizations [regs]: each added for an ascending list of parameters *)
Record ml_object (ss : list pst) (D : list pval -> Prop) (m : mlobj) (like : list pval -> R) (cons regs : list term) : Prop := mkMO {
  mo_like : likelihood_is ss D (m_est m) (m_model m) like;
  mo_con : m_con m = map registration cons;
  mo_reg : m_reg m = map registration regs;
  mo_maps : forall c, In c (cons ++ regs) ->
    tm_map c <> [] /\ StronglySorted lt (tm_map c) /\ Forall (fun k => k < length ss)%nat (tm_map c) /\
    forall ps, are_pars ss ps -> D ps -> tm_dom c (sub_args (tm_map c) ps);
  mo_cons : forall c, In c cons -> constraint (sub_axes (tm_map c) ss) (tm_dom c) (tm_fun c) (tm_val c) (tm_der c);
  mo_regs : forall c, In c regs -> penalty (sub_axes (tm_map c) ss) (tm_dom c) (tm_fun c) (tm_val c) }.

(** the value of a term, the penalized log-likelihood *)
Definition term_at (ps : list pval) (c : term) : R := tm_val c (sub_args (tm_map c) ps).
Definition penalized (like : list pval -> R) (regs : list term) (ps : list pval) : R := like ps - Rsum (term_at ps) regs.
(** the domain contains the parameters and, for each entry, all values near it *)
Definition inside (D : list pval -> Prop) (params : list (param R)) : Prop :=
  D (map arr_of params) /\
  forall i a, (i < length params)%nat -> (a < size_of params i)%nat -> locally (entry_of params i a) (fun t => D (map arr_of (set_entry params i a t))).

(** the parameters are numpy arrays, as in MaxLike *)
Definition arrays (ps : list pval) : Prop := Forall (fun p => exists a, p = PArr a) ps.
(** entry [x] of parameter [i] *)
Definition par_entry (ps : list pval) (i : nat) (x : idx) : R := pentry (nth i ps (PNum 0)) x.
(** the sum of g over all entries of all parameters *)
Definition over_params (ss : list pst) (g : nat -> idx -> R) : R :=
  Rsum (fun i => Rsum (g i) (indices (flat (nth i ss ([], []))))) (seq 0 (length ss)).
