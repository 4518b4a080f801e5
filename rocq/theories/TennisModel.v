(** Model of /repo/maxlike/func/tennis.py over the reals: the entries of the
    last axis (dim=1) for one feature cell, as lists.  The layout of the feature
    axes ([np.stack(..).swapaxes(0, -1)]) is modelled at the end on index
    functions. Simplification: reals instead of floats. *)
From Coq Require Import Reals List.
From Verif Require Import Prelude.
Import List ListNotations.
Local Open Scope R_scope.

(** tennis.py:12-20 *)
Definition game (p : R) : list R :=
  let q := 1 - p in
  [p ^ 4; 4 * p ^ 4 * q; 10 * p ^ 4 * q ^ 2; 20 * p ^ 5 * q ^ 3 / (1 - 2 * p * q)].
(** tennis.py:22-32 *)
Definition game_grad (p : R) : list R :=
  let q := 1 - p in
  [4 * p ^ 3; 4 * (4 - 5 * p) * p ^ 3; 20 * (2 - 3 * p) * q * p ^ 3;
   -20 * (12 * p ^ 3 - 20 * p ^ 2 + 16 * p - 5) * q ^ 2 * p ^ 4 / (1 - 2 * p * q) ^ 2].
(** tennis.py:34-45 *)
Definition game_hess (p : R) : list R :=
  let q := 1 - p in
  [12 * p ^ 2; 16 * (3 - 5 * p) * p ^ 2; 20 * (5 * (1 - 3 * p) * q + 1) * p ^ 2;
   40 * (60 * p ^ 6 - 200 * p ^ 5 + 322 * p ^ 4 - 308 * p ^ 3 + 184 * p ^ 2 - 65 * p + 10) *
     q * p ^ 3 / (1 - 2 * p * q) ^ 3].

(** tennis.py:54-65 *)
Definition tiebreak (p : R) : list R :=
  let q := 1 - p in
  [p ^ 7; 7 * p ^ 7 * q; 28 * p ^ 7 * q ^ 2; 84 * p ^ 7 * q ^ 3; 210 * p ^ 7 * q ^ 4;
   462 * p ^ 7 * q ^ 5; 924 * p ^ 8 * q ^ 6 / (1 - 2 * p * q)].
(** tennis.py:67-80 *)
Definition tiebreak_grad (p : R) : list R :=
  let q := 1 - p in
  [7 * p ^ 6; 7 * (7 - 8 * p) * p ^ 6; 28 * (7 - 9 * p) * q * p ^ 6; 84 * (7 - 10 * p) * q ^ 2 * p ^ 6;
   210 * (7 - 11 * p) * q ^ 3 * p ^ 6; 462 * (7 - 12 * p) * q ^ 4 * p ^ 6;
   -1848 * (12 * p ^ 3 - 19 * p ^ 2 + 14 * p - 4) * q ^ 5 * p ^ 7 / (1 - 2 * p * q) ^ 2].
(** tennis.py:82-96 *)
Definition tiebreak_hess (p : R) : list R :=
  let q := 1 - p in
  [42 * p ^ 5; 98 * (3 - 4 * p) * p ^ 5; 56 * (36 * p ^ 2 - 56 * p + 21) * p ^ 5;
   504 * (15 * p ^ 2 - 21 * p + 7) * q * p ^ 5; 420 * (55 * p ^ 2 - 70 * p + 21) * q ^ 2 * p ^ 5;
   924 * (66 * p ^ 2 - 77 * p + 21) * q ^ 3 * p ^ 5;
   1848 * (264 * p ^ 6 - 836 * p ^ 5 + 1270 * p ^ 4 - 1136 * p ^ 3 + 625 * p ^ 2 - 200 * p + 28) *
     q ^ 4 * p ^ 6 / (1 - 2 * p * q) ^ 3].

Definition set_eps : R := / 10000000000.
(** tennis.py:107-108: [np.minimum] then [np.maximum] *)
Definition set_clip (p : R) : R := Rmax (Rmin p (1 - set_eps)) set_eps.
(** tennis.py:109-117 *)
Definition set_entries (p t : R) : list R :=
  let q := 1 - p in
  [p ^ 6; 6 * p ^ 6 * q; 21 * p ^ 6 * q ^ 2; 56 * p ^ 6 * q ^ 3; 126 * p ^ 6 * q ^ 4; 252 * p ^ 7 * q ^ 5;
   504 * p ^ 6 * q ^ 6 * t].
(** tennis.py:105-118 *)
Definition tset (p t : R) : list R := set_entries (set_clip p) t.
(** tennis.py:120-141.  No clipping here. *)
Definition tset_grad (p t : R) (i : nat) : res (list R) :=
  let q := 1 - p in
  match i with
  | 0%nat => Ok [6 * p ^ 5; 6 * (6 - 7 * p) * p ^ 5; 42 * (3 - 4 * p) * q * p ^ 5; 168 * (2 - 3 * p) * q ^ 2 * p ^ 5;
      252 * (3 - 5 * p) * q ^ 3 * p ^ 5; 252 * (7 - 12 * p) * q ^ 4 * p ^ 6; 3024 * (1 - 2 * p) * q ^ 5 * p ^ 5 * t]
  | 1%nat => Ok (repeat 0 6 ++ [504 * q ^ 6 * p ^ 6])
  | _ => Raise ValueError
  end.
(** tennis.py:143-167 *)
Definition tset_hess (p t : R) (i j : nat) : res (list R) :=
  let q := 1 - p in
  match i, j with
  | 0%nat, 0%nat => Ok [30 * p ^ 4; 36 * (5 - 7 * p) * p ^ 4; 42 * (28 * p ^ 2 - 42 * p + 15) * p ^ 4;
      336 * (5 - 6 * p) * (1 - 2 * p) * q * p ^ 4; 756 * (15 * p ^ 2 - 18 * p + 5) * q ^ 2 * p ^ 4;
      504 * (66 * p ^ 2 - 77 * p + 21) * q ^ 3 * p ^ 5; 3024 * (22 * p ^ 2 - 22 * p + 5) * q ^ 4 * p ^ 4 * t]
  | 1%nat, 0%nat => Ok (repeat 0 6 ++ [3024 * (1 - 2 * p) * q ^ 5 * p ^ 5])
  | 1%nat, 1%nat => Ok (repeat 0 7)
  | _, _ => Raise ValueError
  end.

(** Layout, tennis.py:20,65,118: [np.stack(entries)] puts the outcome first and
    [swapaxes(0, -1)] exchanges it with the last feature axis.  Arrays are index
    functions; [stack_swap es m idx] is the element at index [idx] (of length
    [m]+1) of the result, where the features have [m] axes and [es p] lists the
    entries at a feature value. *)
Definition swap_ends (l : list nat) : list nat :=
  match l with
  | [] => []
  | [a] => [a]
  | a :: r => last r 0%nat :: removelast r ++ [a]
  end.
Definition stack0 (es : R -> list R) (p : list nat -> R) (idx : list nat) : R :=
  match idx with
  | [] => 0
  | u :: k => nth u (es (p k)) 0
  end.
Definition stack_swap (es : R -> list R) (p : list nat -> R) (idx : list nat) : R :=
  stack0 es p (swap_ends idx).
