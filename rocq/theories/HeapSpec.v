(** Vocabulary of the memory properties (C60). *)
From Verif Require Import Prelude HeapModel.

Section Spec.
Context {V : Type} (cast : nat -> V -> V).
(** two array objects show a common cell *)
Definition overlap (a b : aobj) : Prop := exists p, In p (adr a) /\ In p (adr b).
(** array object [o] and everything that shows some of its cells is read-only *)
Definition frozen (s : heap (V := V)) (o : nat) : Prop :=
  exists a, nth_error (objs s) o = Some a /\
    forall o' a', nth_error (objs s) o' = Some a' -> overlap a a' -> wr a' = false.
(** no other writable array object shows cells of [o] *)
Definition sole (s : heap (V := V)) (o : nat) : Prop :=
  forall a o' a', nth_error (objs s) o = Some a -> nth_error (objs s) o' = Some a' -> o' <> o -> overlap a a' -> wr a' = false.
Definition no_unlock (h : list (op (V := V))) : Prop := forall o, ~ In (Unlock o) h.
End Spec.
