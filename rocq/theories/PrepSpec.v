(** Specification vocabulary for C48-C50. *)
From Coq Require Import Reals Sorting.Sorted.
From Verif Require Import Prelude.
Local Open Scope R_scope.
Definition total_order {L} (leb : L -> L -> bool) : Prop :=
  (forall a b, leb a b = true \/ leb b a = true) /\
  (forall a b, leb a b = true -> leb b a = true -> a = b) /\
  (forall a b c, leb a b = true -> leb b c = true -> leb a c = true).
Definition increasing {L} (leb : L -> L -> bool) (l : list L) : Prop :=
  StronglySorted (fun a b => leb a b = true /\ a <> b) l.
(** [selected rows k vs]: vs are the values of the rows labelled k, in order. *)
Inductive selected {K V} : list (K * V) -> K -> list V -> Prop :=
| sel_nil k : selected [] k []
| sel_take k v rows vs : selected rows k vs -> selected ((k, v) :: rows) k (v :: vs)
| sel_skip k k' v rows vs : k' <> k -> selected rows k vs -> selected ((k', v) :: rows) k vs.
(** What a cell must hold: 0 if no row falls in it or the transformation gives NaN. *)
Definition cell {V} (f : list V -> option R) (vs : list V) : R :=
  match vs with [] => 0 | _ => match f vs with Some x => x | None => 0 end end.
(** Row-major position of a multi-index. *)
Fixpoint ravel (shape idx : list nat) : nat :=
  match shape, idx with
  | n :: s, i :: r => (i * prodn s + ravel s r)%nat
  | _, _ => O
  end.
(** [labels ax idx = Some k]: k is the tuple of labels at the multi-index idx. *)
Fixpoint labels {L} (ax : list (list L)) (idx : list nat) : option (list L) :=
  match ax, idx with
  | [], [] => Some []
  | a :: r, i :: s => match nth_error a i, labels r s with Some x, Some k => Some (x :: k) | _, _ => None end
  | _, _ => None
  end.
(** The index of a pandas object: every level lists each of its labels once, every
    row has one label per level. *)
Definition index_ok {L V} (levels : list (nat * list L)) (rows : list (list L * V)) : Prop :=
  Forall (fun nl => NoDup (snd nl)) levels /\
  Forall (fun r => Forall2 (fun x nl => In x (snd nl)) (fst r) levels) rows.
(** The extra labels asked for a level. *)
Definition extra {L} (add_axis : option (list (nat * list L))) (name : nat) (x : L) : Prop :=
  match add_axis with
  | None => False
  | Some d => exists pre l post, d = pre ++ (name, l) :: post /\ ~ In name (map fst pre) /\ In x l
  end.
(** An array (shape, values) holds transformation f of the rows, cell by cell. *)
Definition tabulates {L V} (ax : list (list L)) (rows : list (list L * V)) (f : list V -> option R)
  (arr : list nat * list R) : Prop :=
  fst arr = map (@length L) ax /\ length (snd arr) = prodn (map (@length L) ax) /\
  forall idx k vs, labels ax idx = Some k -> selected rows k vs ->
    nth_error (snd arr) (ravel (map (@length L) ax) idx) = Some (cell f vs).
