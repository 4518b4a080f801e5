(** Independent vocabulary for the statements about the assembled gradient
    and Hessian (C11, C13, C14). *)
From Coq Require Import Ring_theory.
From Verif Require Import Prelude ParamModel AssembleModel.

(** Positions (C order) of the free entries of a mask. *)
Definition free_idx (m : list bool) : list nat :=
  filter (fun a => negb (nth a m true)) (seq 0 (length m)).

Section Spec.
Context {A : Type}.
Variables (zero : A) (add sub mul : A -> A -> A).

Definition noparam : param A := mkParam [] [] [].

(** Number of entries of parameter [i]. *)
Definition size_of (ps : list (param A)) (i : nat) : nat := length (p_mask (nth i ps noparam)).

(** The free coordinates (parameter, entry), in the order of the flat vector. *)
Definition free_coords (ps : list (param A)) : list (nat * nat) :=
  flat_map (fun i => map (pair i) (free_idx (p_mask (nth i ps noparam)))) (seq 0 (length ps)).

Definition sumA {X} (f : X -> A) (l : list X) : A := fold_right add zero (map f l).

Definition got {X} (d : X) (r : res X) : X := match r with Ok x => x | Raise _ => d end.
Definition args_of (ps : list (param A)) (pm : list nat) : list (param A) :=
  map (fun k => nth k ps noparam) pm.

(** Entry [a] of a block; a one-entry block stands for a constant. *)
Definition entry (v : list A) (a : nat) : A := match v with [x] => x | _ => nth a v zero end.
Definition block_ok (n : nat) (v : list A) : Prop := length v = n \/ length v = 1.

(** Value, gradient and Hessian entries of a function registered with
    [param_map = pm]: argument number [p] of the function is parameter
    [pm[p]]. *)
Definition fvalue ps (c : list nat * sfunc A) : A := got zero (sf_val (snd c) (args_of ps (fst c))).
Definition fgrad ps (c : list nat * sfunc A) (p a : nat) : A :=
  entry (nth p (got [] (sf_grad (snd c) (args_of ps (fst c)))) []) a.
Definition fhess ps (c : list nat * sfunc A) (p q k : nat) : A :=
  entry (nth q (nth p (got [] (sf_hess (snd c) (args_of ps (fst c)))) []) []) k.

(** The arguments of the function that are parameter [i]. *)
Definition occurrences (pm : list nat) (i : nat) : list nat :=
  filter (fun p => nth p pm 0 =? i) (seq 0 (length pm)).

(** Pairs of arguments q <= p that are parameters i and j. *)
Definition occurrences2 (pm : list nat) (i j : nat) : list (nat * nat) :=
  filter (fun pq => (nth (fst pq) pm 0 =? i) && (nth (snd pq) pm 0 =? j))
    (flat_map (fun p => map (fun q => (p, q)) (seq 0 (S p))) (seq 0 (length pm))).

(** Derivative of function [c] with respect to entry [a] of parameter [i]. *)
Definition dfun ps c (i a : nat) : A := sumA (fun p => fgrad ps c p a) (occurrences (fst c) i).
(** Second derivative contribution to block (i, j), flat position [k]. *)
Definition d2fun ps c (i j k : nat) : A :=
  sumA (fun pq => fhess ps c (fst pq) (snd pq) k) (occurrences2 (fst c) i j).

(** The function evaluates without raising at these parameters and returns
    blocks of the right sizes. *)
Definition registered (ps : list (param A)) (c : list nat * sfunc A) : Prop :=
  fst c <> [] /\ Forall (fun k => k < length ps) (fst c) /\
  (exists v, sf_val (snd c) (args_of ps (fst c)) = Ok v) /\
  (exists g, sf_grad (snd c) (args_of ps (fst c)) = Ok g /\ length g = length (fst c) /\
     forall p, p < length (fst c) -> block_ok (size_of ps (nth p (fst c) 0)) (nth p g [])) /\
  (exists h, sf_hess (snd c) (args_of ps (fst c)) = Ok h /\ length h = length (fst c) /\
     forall p, p < length (fst c) -> length (nth p h []) = S p /\
       forall q, q <= p -> block_ok (size_of ps (nth p (fst c) 0) * size_of ps (nth q (fst c) 0))
                                    (nth q (nth p h []) [])).

(** Shapes of what grad_like and hess_like return. *)
Definition grad_shaped (ps : list (param A)) (g : list (list A)) : Prop :=
  length g = length ps /\ forall i, i < length ps -> length (nth i g []) = size_of ps i.
Definition hess_shaped (ps : list (param A)) (h : list (list (list A))) : Prop :=
  length h = length ps /\ forall i, i < length ps -> length (nth i h []) = S i /\
    forall j, j <= i -> length (nth j (nth i h []) []) = size_of ps i * size_of ps j.

(** Entry of the penalised gradient and Hessian of the likelihood:
    likelihood minus regularizations. *)
Definition pen_grad ps (g : list (list A)) (rs : regs A) (i a : nat) : A :=
  sub (nth a (nth i g []) zero) (sumA (fun c => dfun ps c i a) rs).
(** For j <= i: row (i, a), column (j, b) of the lower triangular blocks. *)
Definition pen_hess ps (h : list (list (list A))) (rs : regs A) (i a j b : nat) : A :=
  let k := a * size_of ps j + b in
  sub (nth k (nth j (nth i h []) []) zero) (sumA (fun c => d2fun ps c i j k) rs).
Definition full_hess ps h rs (ia jb : nat * nat) : A :=
  let '(i, a) := ia in let '(j, b) := jb in
  if j <? i then pen_hess ps h rs i a j b else pen_hess ps h rs j b i a.

(** All param_maps list their parameters in ascending order. *)
Definition ascending (pm : list nat) : Prop :=
  forall p q, q <= p < length pm -> nth q pm 0 <= nth p pm 0.
End Spec.
