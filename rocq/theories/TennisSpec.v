(** The rules of tennis scoring, independent of the code. *)
From Coq Require Import Reals List.
From Verif Require Import Prelude.
Import List ListNotations.
Local Open Scope R_scope.

(** Scoring rules as a spec: [reach n p a b] is the probability that, playing
    points won independently with probability [p] until one side has [n], the
    score passes through (a, b), as the sum over the last point played. *)
Fixpoint reach (n : nat) (p : R) (fuel a b : nat) : R :=
  match fuel with
  | O => match a, b with O, O => 1 | _, _ => 0 end
  | S f =>
    match a, b with
    | O, O => 0
    | S a', O => if Nat.ltb a' n then p * reach n p f a' 0 else 0
    | O, S b' => if Nat.ltb b' n then (1 - p) * reach n p f 0 b' else 0
    | S a', S b' =>
        (if (Nat.ltb a' n && Nat.ltb (S b') n)%bool then p * reach n p f a' (S b') else 0) +
        (if (Nat.ltb (S a') n && Nat.ltb b' n)%bool then (1 - p) * reach n p f (S a') b' else 0)
    end
  end.

(** [get d u]: entry [u] of a result, for the statements of derivatives of
    functions that may raise. *)
Definition get (r : res (list R)) (u : nat) : R := match r with Ok l => nth u l 0 | Raise _ => 0 end.
