(** Model of the likelihood classes of /repo/maxlike/maxlike.py over the
    reals, on dense arrays: [y k] is the model value at cell [k], [der p k] the
    derivative at cell [k] in coordinate [p] (entry of a parameter) and
    [hess p q k] the second derivative.  In the code these are Tensors; that
    [*], [-], [.sum()], [.transpose()] on Tensors mean the pointwise operations
    used here is the subject of TensorModel.v.  Simplifications: real numbers
    instead of floats; hess_like is given for all pairs of coordinates, while
    the code computes the blocks j <= i and flat_hess mirrors them (C14). *)
From Coq Require Import Reals List.
From Verif Require Import AnalyticSpec.
Import List ListNotations.
Local Open Scope R_scope.

Section Cells.
Context {P K : Type}.
Variable cells : list K.
Variable gammaln : R -> R.                (* scipy.special.gammaln: any function *)

(** maxlike.py:15-17 *)
Definition Poisson_like (X N : K -> R) (y : K -> R) : R :=
  Rsum (fun k => X k * y k - N k * exp (y k) - gammaln (X k + 1)) cells.
(** maxlike.py:19-21 *)
Definition Poisson_grad (X N : K -> R) (y : K -> R) (der : P -> K -> R) (p : P) : R :=
  Rsum (fun k => let delta := X k - N k * exp (y k) in der p k * delta) cells.
(** maxlike.py:23-28 *)
Definition Poisson_hess (X N : K -> R) (y : K -> R) (der : P -> K -> R) (hess : P -> P -> K -> R) (p q : P) : R :=
  Rsum (fun k => let delta2 := N k * exp (y k) in
                 let delta := X k - delta2 in
                 hess p q k * delta - der p k * der q k * delta2) cells.

(** maxlike.py:44-47 *)
Definition ZIP_like (s : R) (X N Z : K -> R) (y : K -> R) : R :=
  Rsum (fun k => X k * y k + Z k * ln s - N k * ln (exp (exp (y k)) + s - 1) - gammaln (X k + 1)) cells.
(** maxlike.py:49-52 *)
Definition ZIP_grad (s : R) (X N : K -> R) (y : K -> R) (der : P -> K -> R) (p : P) : R :=
  Rsum (fun k => let exp_y := exp (y k) in
                 let delta := X k - N k * exp_y / (1 + (s - 1) * exp (- exp_y)) in
                 der p k * delta) cells.
(** maxlike.py:54-61 *)
Definition ZIP_hess (s : R) (X N : K -> R) (y : K -> R) (der : P -> K -> R) (hess : P -> P -> K -> R) (p q : P) : R :=
  Rsum (fun k => let exp_y := exp (y k) in
                 let t := exp_y / (1 + (s - 1) * exp (- exp_y)) in
                 let delta := X k - N k * t in
                 let delta2 := N k * t * (1 + t * (s - 1) * exp (- exp_y)) in
                 hess p q k * delta - der p k * der q k * delta2) cells.

(** maxlike.py:73-80 *)
Definition Logistic_like (X N : K -> R) (y : K -> R) : R :=
  - Rsum (fun k => N k * ln (1 + exp (- y k)) + (N k - X k) * y k) cells.
(** maxlike.py:82-85 *)
Definition Logistic_grad (X N : K -> R) (y : K -> R) (der : P -> K -> R) (p : P) : R :=
  Rsum (fun k => let delta := X k - N k / (1 + exp (- y k)) in der p k * delta) cells.
(** maxlike.py:87-95 *)
Definition Logistic_hess (X N : K -> R) (y : K -> R) (der : P -> K -> R) (hess : P -> P -> K -> R) (p q : P) : R :=
  Rsum (fun k => let pr := 1 / (1 + exp (- y k)) in
                 let delta := X k - pr * N k in
                 let delta2 := pr * (1 - pr) * N k in
                 hess p q k * delta - der p k * der q k * delta2) cells.

(** maxlike.py:171-178 *)
Definition NormFinite_like (N : K -> R) (y : K -> R) : R := Rsum (fun k => N k * ln (y k)) cells.
(** maxlike.py:180-181 *)
Definition NormFinite_grad (N : K -> R) (y : K -> R) (der : P -> K -> R) (p : P) : R :=
  Rsum (fun k => N k * der p k / y k) cells.
(** maxlike.py:183-191 *)
Definition NormFinite_hess (N : K -> R) (y : K -> R) (der : P -> K -> R) (hess : P -> P -> K -> R) (p q : P) : R :=
  Rsum (fun k => let h := (hess p q k - der p k * der q k / y k) / y k in N k * h) cells.

(** maxlike.py:205-213 *)
Definition NegBin_like (r : R) (X N : K -> R) (y : K -> R) : R :=
  Rsum (fun k => gammaln (X k + r) - gammaln (X k + 1) + r * ln r - gammaln r +
                 X k * y k - (X k + r * N k) * ln (r + exp (y k))) cells.
(** maxlike.py:215-222 *)
Definition NegBin_grad (r : R) (X N : K -> R) (y : K -> R) (der : P -> K -> R) (p : P) : R :=
  Rsum (fun k => let m := exp (y k) in
                 let delta := X k - (X k + r * N k) * m / (m + r) in der p k * delta) cells.
(** maxlike.py:224-235 *)
Definition NegBin_hess (r : R) (X N : K -> R) (y : K -> R) (der : P -> K -> R) (hess : P -> P -> K -> R) (p q : P) : R :=
  Rsum (fun k => let m := exp (y k) in
                 let s := m / (m + r) in
                 let delta := X k - (X k + r * N k) * s in
                 let delta2 := (X k + r * N k) * s * s - X k + delta in
                 hess p q k * delta + der p k * der q k * delta2) cells.
End Cells.

(** Finite: [K] features, [U] outcomes (the dims of the model);
    [x.sum(False)] adds over the outcomes. *)
Section Finite.
Context {P K U : Type}.
Variables (feats : list K) (outs : list U).
Definition sum_dims (y : K -> U -> R) (k : K) : R := Rsum (y k) outs.
Definition sum_all (f : K -> U -> R) : R := Rsum (fun k => Rsum (f k) outs) feats.

(** maxlike.py:115-124 *)
Definition Finite_like (N : K -> U -> R) (y : K -> U -> R) : R :=
  let z := sum_dims y in sum_all (fun k u => N k u * (ln (y k u) - ln (z k))).
(** maxlike.py:126-138 *)
Definition Finite_grad (N : K -> U -> R) (y : K -> U -> R) (der : P -> K -> U -> R) (p : P) : R :=
  let z := sum_dims y in let dz := sum_dims (der p) in
  sum_all (fun k u => N k u * (der p k u / y k u - dz k / z k)).
(** maxlike.py:140-153 *)
Definition Finite_hess (N : K -> U -> R) (y : K -> U -> R) (der : P -> K -> U -> R)
    (hess : P -> P -> K -> U -> R) (p q : P) : R :=
  let z := sum_dims y in
  let dz := fun i => sum_dims (der i) in
  let hz := sum_dims (hess p q) in
  sum_all (fun k u =>
    let H1 := (hess p q k u - der p k u * der q k u / y k u) / y k u in
    let H2 := (hz k - dz p k * dz q k / z k) / z k in
    N k u * (H1 - H2)).
End Finite.

(** maxlike_base.py:94-104: the objective, like minus regularizations over the
    total of N. *)
Definition objective (like : R) (regs : list R) (N_total : R) : R :=
  fold_left Rminus regs like / N_total.
