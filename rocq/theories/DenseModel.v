(** Dense tensors: the meaning of a maxlike Tensor once every representation
    trick (axis maps, formal sums, size-1 axes that numpy broadcasts) has been
    resolved.  A dense tensor has four groups of axes, the ones documented in
    tensor/tensor.py (class BaseTensor, lines 107-123): [xs] ("x_dim"), [ys]
    ("y_dim"), [ns] (features, "n") and [ds] ("dim").

    This file is used twice: as the value domain of the Func layer
    (FuncModel.v) and as the specification of the Tensor layer. *)
From Verif Require Import Prelude.
From Coq Require Import Reals.
Open Scope R_scope.

Notation idx := (list nat) (only parsing).

Record dt := DT { xs : list nat; ys : list nat; ns : list nat; ds : list nat;
                  at_ : idx -> idx -> idx -> idx -> R }.

(** numpy broadcasting of a read: along an axis of size (at most) one every
    coordinate reads entry 0; coordinates of missing axes are dropped. *)
Definition clampi (s i : nat) : nat := if Nat.leb s 1 then O else i.
Fixpoint clamp (sh : list nat) (i : idx) : idx :=
  match sh, i with
  | s :: sh', k :: i' => clampi s k :: clamp sh' i'
  | _, _ => []
  end.

Definition get (t : dt) (x y n d : idx) : R :=
  at_ t (clamp (xs t) x) (clamp (ys t) y) (clamp (ns t) n) (clamp (ds t) d).

(** Shape of the broadcast of two groups of axes (a missing group is rank 0). *)
Fixpoint bmax (a b : list nat) : list nat :=
  match a, b with
  | [], _ => b
  | _, [] => a
  | s :: a', s' :: b' => Nat.max s s' :: bmax a' b'
  end.

(** All multi-indices of a shape, in C order. *)
Fixpoint indices (sh : list nat) : list idx :=
  match sh with
  | [] => [[]]
  | s :: r => flat_map (fun i => map (cons i) (indices r)) (seq 0 s)
  end.

(** [Tensor(c)] for a number c. *)
Definition dconst (c : R) : dt := DT [] [] [] [] (fun _ _ _ _ => c).
Definition dzero : dt := dconst 0.

(** Pointwise binary operation with broadcasting. *)
Definition dbin (op : R -> R -> R) (a b : dt) : dt :=
  DT (bmax (xs a) (xs b)) (bmax (ys a) (ys b)) (bmax (ns a) (ns b)) (bmax (ds a) (ds b))
     (fun x y n d => op (get a x y n d) (get b x y n d)).
Definition dadd := dbin Rplus.
Definition dsub := dbin Rminus.
Definition dmul := dbin Rmult.
(** Pointwise unary operation. *)
Definition dmap (op : R -> R) (a : dt) : dt :=
  DT (xs a) (ys a) (ns a) (ds a) (fun x y n d => op (at_ a x y n d)).
Definition dscal (c : R) := dmap (fun v => c * v).
Definition dshift (a : dt) (c : R) := dmap (fun v => v + c) a.
Definition dneg := dmap Ropp.

(** Exchange of the x and y groups. *)
Definition dtrans (a : dt) : dt :=
  DT (ys a) (xs a) (ns a) (ds a) (fun x y n d => at_ a y x n d).

(** "Converts the 'dim' extra-dimensional space to a 'value' space"
    (tensor.py:165-168). *)
Definition ddrop (a : dt) : dt :=
  DT (xs a) (ys a) (ns a ++ ds a) []
     (fun x y n _ => at_ a x y (firstn (length (ns a)) n) (skipn (length (ns a)) n)).

Definition sumR (l : list R) : R := fold_right Rplus 0 l.

(** Contraction of the x axes of [self] with the feature axes of [other]
    (docstring tensor.py:676-686). *)
Definition ddot_left (self other : dt) : dt :=
  DT (xs other) (ys self) (ns self) (bmax (ds self) (ds other))
     (fun x y m d =>
        sumR (map (fun k => get other x [] k d * get self k y m d)
                  (indices (bmax (xs self) (ns other))))).

(** Contraction of the x axes of [self] with the feature axes of a
    second-derivative tensor [other] (docstring tensor.py:723-733). *)
Definition ddot_right (self other : dt) : dt :=
  DT (xs other) (ys other) (ns self) (bmax (ds self) (ds other))
     (fun x y m d =>
        sumR (map (fun k => get other x y k d * get self k [] m d)
                  (indices (bmax (xs self) (ns other))))).

(** [expand(where, newsize)]: old feature k becomes new feature where[k]; the
    other new features are broadcast (size 1). *)
Fixpoint index_of (k : nat) (l : list nat) : option nat :=
  match l with
  | [] => None
  | h :: r => if Nat.eqb h k then Some O else option_map S (index_of k r)
  end.
Definition expand_shape (sh where_ : list nat) (newsize : nat) : list nat :=
  map (fun k => match index_of k where_ with Some j => nth j sh 1%nat | None => 1%nat end)
      (seq 0 newsize).
Definition pull (where_ : list nat) (i : idx) : idx := map (fun f => nth f i O) where_.
Definition dexpand (a : dt) (where_ : list nat) (newsize : nat) : dt :=
  DT (xs a) (ys a) (expand_shape (ns a) where_ newsize) (ds a)
     (fun x y n d => get a x y (pull where_ n) d).
Definition dexpand_dim (a : dt) (where_ : list nat) (newsize : nat) : dt :=
  DT (xs a) (ys a) (ns a) (expand_shape (ds a) where_ newsize)
     (fun x y n d => get a x y n (pull where_ d)).

(** Reversal of the feature axes listed in [where_]. *)
Definition flip1 (sh : list nat) (i : idx) (k : nat) : idx :=
  upd_nth k (nth k sh 1 - 1 - nth k i 0)%nat i.
Definition flip_idx (sh : list nat) (where_ : list nat) (i : idx) : idx :=
  fold_left (flip1 sh) where_ i.
Definition dflip (a : dt) (where_ : list nat) : dt :=
  DT (xs a) (ys a) (ns a) (ds a)
     (fun x y n d => at_ a x y (flip_idx (ns a) where_ n) d).

(** Sum over all feature axes (if [sv]) and all dim axes (if [sd]). *)
Definition dsum_axes (a : dt) (sv sd : bool) : dt :=
  DT (xs a) (ys a) (if sv then [] else ns a) (if sd then [] else ds a)
     (fun x y n d =>
        sumR (map (fun '(n', d') => at_ a x y n' d')
                  (list_prod (if sv then indices (ns a) else [n])
                             (if sd then indices (ds a) else [d])))).

(** Same meaning (equal at every index, after broadcasting). *)
Definition deq (a b : dt) : Prop := forall x y n d, get a x y n d = get b x y n d.
