(** Specification vocabulary for C40-C42, independent of the model. *)
From Coq Require Import Reals List.
Import List ListNotations.
Local Open Scope R_scope.
Fixpoint lsum (l : list R) : R := match l with [] => 0 | a :: r => a + lsum r end.
(** A usable marginal: no negative weight, positive total. *)
Definition marginal (l : list R) : Prop := (forall a, In a l -> 0 <= a) /\ 0 < lsum l.
Definition entry (J : list (list R)) (i j : nat) : R := nth j (nth i J []) 0.
Definition column (J : list (list R)) (j : nat) : list R := map (fun row => nth j row 0) J.
Definition matrix_of (J : list (list R)) (n m : nat) : Prop := length J = n /\ forall row, In row J -> length row = m.
(** Row sums are px normalised, column sums py normalised, and the total is 1. *)
Definition has_margins (J : list (list R)) (px py : list R) : Prop :=
  matrix_of J (length px) (length py) /\
  (forall i, (i < length px)%nat -> lsum (nth i J []) = nth i px 0 / lsum px) /\
  (forall j, (j < length py)%nat -> lsum (column J j) = nth j py 0 / lsum py) /\
  lsum (map lsum J) = 1.
Definition independent (J : list (list R)) (px py : list R) : Prop :=
  forall i j, (i < length px)%nat -> (j < length py)%nat ->
  entry J i j = nth i px 0 / lsum px * (nth j py 0 / lsum py).
(** The copulas as documented (docstrings, copula.py:89-168), on (0,1] x (0,1]. *)
Definition doc_clayton (a u v : R) : R := Rpower (Rpower u (- a) + Rpower v (- a) - 1) (- (1 / a)).
Definition doc_frank (a u v : R) : R :=
  - (1 / a) * ln (1 + (exp (- (a * u)) - 1) * (exp (- (a * v)) - 1) / (exp (- a) - 1)).
Definition doc_amh (rho u v : R) : R := u * v / (1 - rho * (1 - u) * (1 - v)).
(** Gumbel strictly inside: -ln u > 0 and -ln v > 0. *)
Definition doc_gumbel (a u v : R) : R := exp (- Rpower (Rpower (- ln u) a + Rpower (- ln v) a) (1 / a)).
(** Partial sums: the mass of rows 0..i, columns 0..j, and of entries 0..i. *)
Definition cum (l : list R) (i : nat) : R := lsum (firstn (S i) l).
Definition joint_cum (J : list (list R)) (i j : nat) : R := lsum (map (fun row => cum row j) (firstn (S i) J)).
