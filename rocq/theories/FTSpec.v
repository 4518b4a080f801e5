(** What it means for a function object computing with Tensors (FTModel.v) to be
    right.  Only method results appear, read entry by entry through their
    meaning ([vden], TensorSpec.v). *)
From Verif Require Import Prelude DenseModel AnalyticSpec NDArray TensorModel TensorSpec FuncModel FuncSpec FTModel.
From Coquelicot Require Import Coquelicot.
From Coq Require Import Reals.
Import List ListNotations.
Open Scope R_scope.

(** [p] is a parameter with axes [s] (features, dim): a number, a numpy array, or
    a Tensor without parameter axes *)
Definition is_par (s : pst) (p : pval) : Prop :=
  has_st (vden p) s /\ match p with PT t => wf t | PG _ => False | _ => True end.
Definition are_pars (ss : list pst) (ps : list pval) : Prop := Forall2 (fun p s => is_par s p) ps ss.
(** the result of a call, 0 if it raises *)
Definition res0 (r : res pval) : pval := match r with Ok v => v | Raise _ => PNum 0 end.
(** the entry (x, y, n, d) of a result *)
Definition at_res (r : res pval) (x y n d : idx) : R := get (vden (res0 r)) x y n d.
(** entry [x] of a parameter *)
Definition pentry (p : pval) (x : idx) : R := parr (vden p) x.

(** a curve of parameters, differentiable at time [t] with velocity [v] *)
Definition par_curve (ss : list pst) (c : R -> list pval) (v : nat -> idx -> R) (t : R) : Prop :=
  (forall s, are_pars ss (c s)) /\
  forall i x, (i < length ss)%nat -> In x (indices (flat (nth i ss ([], [])))) ->
    is_derive (fun s => pentry (nth i (c s) (PNum 0)) x) t (v i x).

(** every call returns *)
Definition t_total (ss : list pst) (D : list pval -> Prop) (f : tfun) : Prop :=
  forall ps, are_pars ss ps -> D ps ->
    (exists v, t_call f ps = Ok v) /\
    (forall i, (i < length ss)%nat -> exists g, t_grad f ps i = Ok g) /\
    (forall i j, (i < length ss)%nat -> (j <= i)%nat -> exists h, t_hess f ps i j = Ok h).
(** [grad] is the derivative of the value: along every curve of parameters, the
    derivative of every entry of the value is the pairing of the gradient with
    the velocity *)
Definition t_grad_correct (ss : list pst) (out : pst) (D : list pval -> Prop) (f : tfun) : Prop :=
  forall c v t, par_curve ss c v t -> locally t (fun s => D (c s)) ->
  forall n d, In n (indices (fst out)) -> In d (indices (snd out)) ->
    is_derive (fun s => at_res (t_call f (c s)) [] [] n d) t
      (pairing ss (fun i x => at_res (t_grad f (c t) i) x [] n d) v).
(** the matrix of second derivatives read off the lower triangle *)
Definition t_hess_at (f : tfun) (ps : list pval) (i j : nat) (x y n d : idx) : R :=
  if Nat.leb j i then at_res (t_hess f ps i j) x y n d else at_res (t_hess f ps j i) y x n d.
(** [hess] is the derivative of the gradient *)
Definition t_hess_correct (ss : list pst) (out : pst) (D : list pval -> Prop) (f : tfun) : Prop :=
  forall c v t, par_curve ss c v t -> locally t (fun s => D (c s)) ->
  forall i x n d, (i < length ss)%nat -> In x (indices (flat (nth i ss ([], [])))) ->
    In n (indices (fst out)) -> In d (indices (snd out)) ->
    is_derive (fun s => at_res (t_grad f (c s) i) x [] n d) t
      (pairing ss (fun j y => t_hess_at f (c t) i j x y n d) v).
(** diagonal blocks are symmetric *)
Definition t_hess_sym (ss : list pst) (out : pst) (D : list pval -> Prop) (f : tfun) : Prop :=
  forall ps i x y n d, are_pars ss ps -> D ps -> (i < length ss)%nat ->
    In x (indices (flat (nth i ss ([], [])))) -> In y (indices (flat (nth i ss ([], [])))) ->
    In n (indices (fst out)) -> In d (indices (snd out)) ->
    at_res (t_hess f ps i i) x y n d = at_res (t_hess f ps i i) y x n d.
Record t_correct (ss : list pst) (out : pst) (D : list pval -> Prop) (f : tfun) : Prop := mkTC {
  tc_total : t_total ss D f;
  tc_grad : t_grad_correct ss out D f;
  tc_hess : t_hess_correct ss out D f;
  tc_sym : t_hess_sym ss out D f }.
