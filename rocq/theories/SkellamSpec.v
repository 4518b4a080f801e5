(** Specification vocabulary for the Poisson / Skellam properties. *)
From Coq Require Import Reals List ZArith.
From Coquelicot Require Import Coquelicot.
From Verif Require Import AnalyticSpec.
Import List ListNotations.
Local Open Scope R_scope.
(** P(X = k) for X Poisson of rate a. *)
Definition pmf (a : R) (k : nat) : R := exp (- a) * (a ^ k / INR (fact k)).
(** P(X < N). *)
Definition pcdf (a : R) (N : nat) : R := Rsum (pmf a) (seq 0 N).
(** Probability of the event E(X, Y), X < N and Y < M, with X ~ Poisson(a) and
    Y ~ Poisson(b) independent. *)
Definition prob (a b : R) (N M : nat) (E : nat -> nat -> bool) : R :=
  Rsum (fun i => Rsum (fun j => if E i j then pmf a i * pmf b j else 0) (seq 0 M)) (seq 0 N).
(** The events, on integers: y - x <= n and so on. *)
Definition diff_le (n : Z) (x y : nat) : bool := (Z.of_nat y - Z.of_nat x <=? n)%Z.
Definition diff_ge (n : Z) (x y : nat) : bool := (n <=? Z.of_nat y - Z.of_nat x)%Z.
Definition diff_lt (n : Z) (x y : nat) : bool := (Z.of_nat y - Z.of_nat x <? n)%Z.
Definition diff_gt (n : Z) (x y : nat) : bool := (n <? Z.of_nat y - Z.of_nat x)%Z.
(** P(Y < X) + P(X = Y) / 2 over X < N, Y < M. *)
Definition half_prob (a b : R) (N M : nat) : R :=
  prob a b N M (fun x y => Nat.ltb y x) + / 2 * prob a b N M (fun x y => Nat.eqb x y).
(** The probability itself: the limit over all truncations. *)
Definition true_prob (a b : R) (E : nat -> nat -> bool) (L : R) : Prop :=
  is_lim_seq (fun N => prob a b N N E) L.
(** What [int(x) + 1] can be for a positive truncation size. *)
Definition is_size (x : R) (N : nat) : Prop := INR N - 1 <= x < INR N \/ (N = 1%nat /\ -1 < x < 1).
(** The argument of int() in tol2size, for the quantile [q] of the tolerance. *)
Definition size_arg (q a b : R) : R := - q * (sqrt a + sqrt b) + (a + b).
