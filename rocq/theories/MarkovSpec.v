(** The chains that the Markov functions of matrix.py describe, independently
    of the in-place sweeps.  One step is synchronous: all cells move at once. *)
From Coq Require Import Reals List.
From Verif Require Import Prelude AnalyticSpec.
Import List ListNotations.
Local Open Scope R_scope.

Definition ind (b : bool) : R := if b then 1 else 0.
Definition eq2 (a b : nat * nat) : bool := (Nat.eqb (fst a) (fst b) && Nat.eqb (snd a) (snd b))%bool.
Definition square (n : nat) : list (nat * nat) := list_prod (seq 0 n) (seq 0 n).

(** Matrix: from (x, y), probability s1 skew(x,y) of a move to the next x, s2
    skew(y,x) of a move to the next y (staying put at the border [n-1]). *)
Definition mat_kernel (n : nat) (skew : nat -> nat -> R) (s1 s2 : R) (c d : nat * nat) : R :=
  let '(x, y) := c in
  s1 * skew x y * ind (eq2 d (Nat.min (x + 1) (n - 1), y)) +
  s2 * skew y x * ind (eq2 d (x, Nat.min (y + 1) (n - 1))) +
  (1 - s1 * skew x y - s2 * skew y x) * ind (eq2 d (x, y)).
Definition mat_step n skew s1 s2 (M : nat * nat -> R) (d : nat * nat) : R :=
  Rsum (fun c => M c * mat_kernel n skew s1 s2 c d) (square n).
(** Vector: positions 0 .. 2n-2; up with s1 skew(x), down with s2 skew(2n-2-x). *)
Definition vec_kernel (n : nat) (skew : nat -> R) (s1 s2 : R) (x d : nat) : R :=
  s1 * skew x * ind (Nat.eqb d (Nat.min (x + 1) (2 * n - 2))) +
  s2 * skew (2 * n - 2 - x)%nat * ind (Nat.eqb d (x - 1)) +
  (1 - s1 * skew x - s2 * skew (2 * n - 2 - x)%nat) * ind (Nat.eqb d x).
Definition vec_step n skew s1 s2 (M : nat -> R) (d : nat) : R :=
  Rsum (fun x => M x * vec_kernel n skew s1 s2 x d) (seq 0 (2 * n - 1)).
(** [t] steps from a start distribution. *)
Definition iterate {A} (step : (A -> R) -> A -> R) (t : nat) (start : A -> R) : A -> R := Nat.iter t step start.
