(** What the likelihood of a model should be: the specification used in Props_LT.v. *)
From Verif Require Import Prelude DenseModel AnalyticSpec NDArray NDProofs TensorModel TensorSpec FuncModel FuncSpec FTModel FTSpec FTBuilt LTModel.
From Coq Require Import Reals.
Import List ListNotations.
Open Scope R_scope.

(** entry (n, d) of the data: feature indices n, dim indices d *)
Definition cell (X : pval) (n d : idx) : R := get (vden X) [] [] n d.
(** a data argument: a Tensor with the axes [dat], nothing else *)
Definition is_data (dat : pst) (X : pval) : Prop := exists t, X = PT t /\ is_par dat X.
(** the model's value at that entry *)
Definition fitted (f : tfun) (ps : list pval) (n d : idx) : R := at_res (t_call f ps) [] [] n d.
(** sum over the entries of the data *)
Definition over (dat : pst) (g : idx -> idx -> R) : R := Rsum (fun n => Rsum (fun d => g n d) (indices (snd dat))) (indices (fst dat)).

(** [v] is a Tensor with x axes [X], y axes [Y], no other axes, no diagonals, and
    entries [a] *)
Definition is_block (v : res pval) (X Y : list nat) (a : idx -> idx -> R) : Prop :=
  exists t, v = Ok (PT t) /\ (xd t, yd t, nn t, dm t) = (length X, length Y, 0, 0)%nat /\ xm t = [] /\ ym t = [] /\
    shp (tv t) = X ++ Y /\ forall x y, In x (indices X) -> In y (indices Y) -> el (tv t) (x ++ y) = a x y.

(** A model that can be fitted to data with axes [dat]: built from the function
    objects of the library; all its parameters occur in it; each of its axes is
    the axis of the data or has size 1; axes a parameter is mapped to are not of size 1 by broadcasting *)
Record model_for (ss : list pst) (dat : pst) (D : list pval -> Prop) (f : tfun) : Prop := mkMF {
  mf_built : exists out mf dep, @tbuilt loose ss out D mf dep false f /\
    (forall i, (i < length ss)%nat -> dep i = true) /\
    ax_le (fst out) (fst dat) /\ ax_le (snd out) (snd dat) /\
    (forall k, In k mf -> nth k (fst out) 1%nat = nth k (fst dat) 1%nat);
  mf_params : Forall (fun s => posl (flat s)) ss;
  mf_data : posl (flat dat) /\ flat dat <> [] }.

(** like, grad_like and hess_like are the log-likelihood [value] and its
    derivatives: like is one number; the gradient with respect to parameter i has
    the axes of that parameter, Hessian block (i, j) those of both; and they are
    the derivatives of like *)
Record likelihood_is (ss : list pst) (D : list pval -> Prop) (e : est) (f : tfun) (value : list pval -> R) : Prop := mkLR {
  lr_value : forall ps, are_pars ss ps -> D ps -> is_block (t_call (loglik e f) ps) [] [] (fun _ _ => value ps);
  lr_grad : forall ps i, are_pars ss ps -> D ps -> (i < length ss)%nat ->
    is_block (t_grad (loglik e f) ps i) (flat (nth i ss ([], []))) [] (fun x _ => at_res (t_grad (loglik e f) ps i) x [] [] []);
  lr_hess : forall ps i j, are_pars ss ps -> D ps -> (i < length ss)%nat -> (j <= i)%nat ->
    is_block (t_hess (loglik e f) ps i j) (flat (nth i ss ([], []))) (flat (nth j ss ([], [])))
      (fun x y => at_res (t_hess (loglik e f) ps i j) x y [] []);
  lr_derivatives : t_correct ss ([], []) D (loglik e f) }.
(** the log-likelihood is a sum over the entries of the data, with summands [ell] *)
Definition likelihood_right (ss : list pst) (dat : pst) (D : list pval -> Prop) (e : est) (f : tfun) (ell : idx -> idx -> R -> R) : Prop :=
  likelihood_is ss D e f (fun ps => over dat (fun n d => ell n d (fitted f ps n d))).

(** A model for Finite: as [model_for], with the dim axes of the data stored in
    full in its value and derivatives (no dim axis of size 1 broadcast); and the
    data have a feature axis *)
Record full_model_for (ss : list pst) (dat : pst) (D : list pval -> Prop) (f : tfun) : Prop := mkFM {
  fm_built : exists out mf dep, @tbuilt full_dims ss out D mf dep false f /\
    (forall i, (i < length ss)%nat -> dep i = true) /\
    ax_le (fst out) (fst dat) /\ snd out = snd dat /\
    (forall k, In k mf -> nth k (fst out) 1%nat = nth k (fst dat) 1%nat);
  fm_params : Forall (fun s => posl (flat s)) ss;
  fm_data : posl (flat dat) /\ fst dat <> [] }.
(** sum of the fitted values over the dim axes *)
Definition fitted_total (dat : pst) (f : tfun) (ps : list pval) (n : idx) : R := Rsum (fun u => fitted f ps n u) (indices (snd dat)).
