(** Shared vocabulary: Python exceptions as values and a few list helpers.
    Nothing in this file models a line of /repo by itself; it fixes the
    conventions used by every model file. *)
From Coq Require Export List Arith ZArith Lia Bool.
Export ListNotations.

(** Python exceptions that the modelled code can raise (or let through). *)
Inductive exn : Type :=
| AssertionError | ValueError | IndexError | TypeError | NameError
| AttributeError | NotImplementedError | ZeroDivisionError
| InvalidOperation            (* tensor.py:13 *)
| ConvergenceError            (* maxlike_base.py:11 *)
| LinAlgError
| OtherError (tag : nat).     (* any exception raised by user supplied code *)

(** Result of a computation that may raise. *)
Inductive res (A : Type) : Type :=
| Ok (a : A)
| Raise (e : exn).
Arguments Ok {A} a.
Arguments Raise {A} e.

Definition rbind {A B} (m : res A) (k : A -> res B) : res B :=
  match m with Ok a => k a | Raise e => Raise e end.

Notation "'let!' x ':=' m 'in' k" := (rbind m (fun x => k))
  (at level 200, x pattern, m at level 100, k at level 200, right associativity).

Definition rmap {A B} (f : A -> B) (m : res A) : res B :=
  match m with Ok a => Ok (f a) | Raise e => Raise e end.

(** [assert b; k] of Python. *)
Definition py_assert (b : bool) : res unit :=
  if b then Ok tt else Raise AssertionError.

(** List comprehension [[f x for x in l]] where [f] may raise. *)
Fixpoint rmapM {A B} (f : A -> res B) (l : list A) : res (list B) :=
  match l with
  | [] => Ok []
  | x :: r => let! y := f x in let! ys := rmapM f r in Ok (y :: ys)
  end.

Definition is_ok {A} (m : res A) : bool :=
  match m with Ok _ => true | Raise _ => false end.

(** Python slice [l[a:b]] for 0 <= a, 0 <= b. *)
Definition slice {A} (a b : nat) (l : list A) : list A := firstn (b - a) (skipn a l).

(** Product of the sizes of the axes, i.e. numpy's [size] of a shape. *)
Definition prodn (l : list nat) : nat := fold_right Nat.mul 1 l.
Definition sumn (l : list nat) : nat := fold_right Nat.add 0 l.

Fixpoint upd_nth {A} (n : nat) (x : A) (l : list A) : list A :=
  match l, n with
  | [], _ => []
  | _ :: r, O => x :: r
  | y :: r, S n' => y :: upd_nth n' x r
  end.

Lemma upd_nth_length {A} n (x : A) l : length (upd_nth n x l) = length l.
Proof. revert n; induction l as [|y r IH]; intros [|n]; cbn; auto. Qed.

Lemma nth_error_upd_nth_eq {A} n (x : A) l :
  n < length l -> nth_error (upd_nth n x l) n = Some x.
Proof.
  revert n; induction l as [|y r IH]; intros [|n]; cbn; intros H; try lia; auto.
  apply IH; lia.
Qed.

Lemma nth_error_upd_nth_neq {A} n m (x : A) l :
  n <> m -> nth_error (upd_nth n x l) m = nth_error l m.
Proof.
  revert n m; induction l as [|y r IH]; intros [|n] [|m] H; cbn; auto; try lia.
Qed.

Lemma rmapM_ok_length {A B} (f : A -> res B) l r :
  rmapM f l = Ok r -> length r = length l.
Proof.
  revert r; induction l as [|x l IH]; cbn; intros r H.
  - injection H as <-; reflexivity.
  - destruct (f x); cbn in H; [|discriminate].
    destruct (rmapM f l); cbn in H; [|discriminate].
    injection H as <-; cbn; f_equal; auto.
Qed.

Lemma rmapM_all_ok {A B} (f : A -> res B) (g : A -> B) l :
  (forall x, In x l -> f x = Ok (g x)) -> rmapM f l = Ok (map g l).
Proof.
  induction l as [|x l IH]; cbn; intros H; [reflexivity|].
  rewrite H by auto; cbn. rewrite IH by auto; reflexivity.
Qed.
