(** What C82 assumes of numpy and scipy when the numbers are reals: exact products,
    exact rank-one update, exact inverse of an invertible matrix. *)
From Coq Require Import String.
From Verif Require Import Prelude AnalyticSpec TensorModel FuncModel ParamModel ParamSpec AssembleSpec OTSpec FitModel FitSpec.
From Coquelicot Require Import Coquelicot.
From Coq Require Import Reals.
From Verif Require Import NTModel NTSpec.
Import List ListNotations.
Open Scope R_scope.

(** row k of A times v *)
Definition row_dot (A : list (list R)) (k : nat) (v : list R) : R := Rsum (fun l => nth l (nth k A []) 0 * nth l v 0) (seq 0 (length v)).
(** K is a square matrix of the size of A with A K = 1 *)
Definition inverse (A K : list (list R)) : Prop :=
  length K = length A /\ forall i j, (i < length A)%nat -> (j < length A)%nat ->
    Rsum (fun l => nth l (nth i A []) 0 * nth j (nth l K []) 0) (seq 0 (length A)) = if (i =? j)%nat then 1 else 0.
(** numpy.dot(A, v) *)
Definition exact_dot (la : linalg) : Prop := forall A v r, la_dot la A v = Ok r -> length r = length A /\ forall k, (k < length A)%nat -> nth k r 0 = row_dot A k v.
(** A + numpy.outer(s - numpy.dot(A, d), d) / (d * d).sum(); for d = 0 numpy gives no numbers, here an exception *)
Definition exact_update (la : linalg) : Prop := forall A s d A', la_broyden la A s d = Ok A' ->
  let dd := Rsum (fun l => nth l d 0 * nth l d 0) (seq 0 (length d)) in
  dd <> 0 /\ length A' = length A /\ forall k l, (k < length A)%nat -> (l < length d)%nat ->
    nth l (nth k A' []) 0 = nth l (nth k A []) 0 + (nth k s 0 - row_dot A k d) * nth l d 0 / dd.
(** scipy.linalg.pinvh of a matrix that has an inverse *)
Definition exact_pinvh (la : linalg) : Prop := forall A K J, inverse A K -> la_pinvh la A = Ok J -> inverse A J.
(** ... and if pinvh is only used on such matrices *)
Definition always_inverse (la : linalg) : Prop := forall A J, la_pinvh la A = Ok J -> inverse A J.
(** the parameters at which the loop evaluated the objective *)
Definition tried (start : list (param R)) (tr : list (event R)) (q : list (param R)) : Prop := exists mult flat, In (EvTrial mult flat) tr /\ reshape_params start flat = Ok q.
(** the rows of H for the multipliers of affine constraints are those of the Newton system *)
Definition constraint_rows (cons : list term) (x : list (param R)) (H : list (list R)) : Prop :=
  length H = (n_free x + length cons)%nat /\ forall k c, nth_error cons k = Some c -> affine_term (axes x) c ->
    (forall l j a, nth_error (free_coords x) l = Some (j, a) -> is_partial (con_value c) j a x (nth l (nth (n_free x + k) H []) 0)) /\
    (forall l, (n_free x <= l < n_free x + length cons)%nat -> nth l (nth (n_free x + k) H []) 0 = 0).
