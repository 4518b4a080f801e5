(** The numpy operations used by tensor/tensor.py, by their documented meaning.
    An array is a shape and a function from multi-indices to entries; only
    entries at in-bounds multi-indices (one coordinate per axis, each below the
    size of its axis) mean anything.  Memory layout, views and dtypes are not
    modelled here (aliasing is the subject of HeapModel.v); entries are exact
    reals.  [numpy.AxisError] is a ValueError in Python and is one here. *)
From Verif Require Import Prelude DenseModel.
From Coq Require Import Reals.
Open Scope R_scope.

Record nda := mkA { shp : list nat; el : idx -> R }.
Definition ndim (a : nda) : nat := length (shp a).

(** [np.asarray(c)] for a number *)
Definition np_scalar (c : R) : nda := mkA [] (fun _ => c).
(** unary ufunc *)
Definition np_map (f : R -> R) (a : nda) : nda := mkA (shp a) (fun i => f (el a i)).

(** *** Broadcasting binary ufunc: shapes aligned at the right, an axis of size
    1 stretches, other different sizes raise ValueError. *)
Definition pad (r : nat) (sh : list nat) : list nat := repeat 1%nat (r - length sh) ++ sh.
Definition bc1 (s s' : nat) : option nat :=
  if Nat.eqb s s' then Some s else if Nat.eqb s 1 then Some s' else if Nat.eqb s' 1 then Some s else None.
Fixpoint bshape (a b : list nat) : option (list nat) :=
  match a, b with
  | s :: a', s' :: b' =>
      match bc1 s s', bshape a' b' with Some t, Some r => Some (t :: r) | _, _ => None end
  | _, _ => Some []
  end.
Definition align (sh : list nat) (i : idx) : idx := clamp sh (skipn (length i - length sh) i).
Definition np_bin (op : R -> R -> R) (a b : nda) : res nda :=
  let r := Nat.max (ndim a) (ndim b) in
  match bshape (pad r (shp a)) (pad r (shp b)) with
  | Some s => Ok (mkA s (fun i => op (el a (align (shp a) i)) (el b (align (shp b) i))))
  | None => Raise ValueError
  end.
(** [np.broadcast_to(a, sh)] *)
Definition np_broadcast_to (a : nda) (sh : list nat) : res nda :=
  if Nat.ltb (length sh) (ndim a) then Raise ValueError
  else if forallb (fun p => Nat.eqb (fst p) (snd p) || Nat.eqb (fst p) 1)
                  (combine (pad (length sh) (shp a)) sh)
  then Ok (mkA sh (fun i => el a (align (shp a) i)))
  else Raise ValueError.

(** *** Basic indexing with full slices, None and one Ellipsis *)
Inductive sel := Sl | Nw | Dots.
Fixpoint count_sl (l : list sel) : nat :=
  match l with [] => O | Sl :: r => S (count_sl r) | _ :: r => count_sl r end.
Fixpoint undots (extra : nat) (l : list sel) : list sel :=
  match l with
  | [] => repeat Sl extra
  | Dots :: r => repeat Sl extra ++ r
  | s :: r => s :: undots extra r
  end.
Fixpoint ishape (l : list sel) (sh : list nat) : list nat :=
  match l, sh with
  | Nw :: l', _ => 1%nat :: ishape l' sh
  | _ :: l', s :: sh' => s :: ishape l' sh'
  | _, _ => []
  end.
Fixpoint iidx (l : list sel) (i : idx) : idx :=
  match l, i with
  | Nw :: l', _ :: i' => iidx l' i'
  | _ :: l', k :: i' => k :: iidx l' i'
  | _, _ => []
  end.
Definition np_index (l : list sel) (a : nda) : res nda :=
  if Nat.ltb (ndim a) (count_sl l) then Raise IndexError
  else let l' := undots (ndim a - count_sl l) l in
       Ok (mkA (ishape l' (shp a)) (fun i => el a (iidx l' i))).

(** *** Reordering of axes *)
Definition swapl (a b : nat) (l : list nat) : list nat :=
  map (fun j => nth (if Nat.eqb j a then b else if Nat.eqb j b then a else j) l O) (seq 0 (length l)).
Definition np_swapaxes (a : nda) (i j : nat) : res nda :=
  if Nat.ltb i (ndim a) && Nat.ltb j (ndim a)
  then Ok (mkA (swapl i j (shp a)) (fun k => el a (swapl i j k)))
  else Raise ValueError.
(** [a.transpose(perm)]: axis j of the result is axis perm[j] of [a] *)
Definition is_perm (n : nat) (perm : list nat) : bool :=
  Nat.eqb (length perm) n && forallb (fun k => existsb (Nat.eqb k) perm) (seq 0 n).
Definition unperm (perm : list nat) (i : idx) : idx :=
  map (fun q => match index_of q perm with Some j => nth j i O | None => O end) (seq 0 (length perm)).
Definition np_transpose (a : nda) (perm : list nat) : res nda :=
  if is_perm (ndim a) perm
  then Ok (mkA (map (fun q => nth q (shp a) O) perm) (fun i => el a (unperm perm i)))
  else Raise ValueError.
(** [np.moveaxis(a, src, dst)] (numpy/core/numeric.py): the other axes keep
    their order *)
Definition np_moveaxis (a : nda) (src dst : nat) : res nda :=
  if Nat.ltb src (ndim a) && Nat.ltb dst (ndim a)
  then let others := filter (fun k => negb (Nat.eqb k src)) (seq 0 (ndim a)) in
       np_transpose a (firstn dst others ++ src :: skipn dst others)
  else Raise ValueError.

(** *** Removing and adding axes.  A mask says which axes are singled out. *)
Fixpoint pick {A} (b : bool) (m : list bool) (l : list A) : list A :=
  match m, l with
  | c :: m', x :: l' => if Bool.eqb c b then x :: pick b m' l' else pick b m' l'
  | _, _ => []
  end.
Fixpoint merge (m : list bool) (i k : idx) : idx :=
  match m with
  | [] => []
  | true :: m' => match k with h :: k' => h :: merge m' i k' | [] => [] end
  | false :: m' => match i with h :: i' => h :: merge m' i' k | [] => [] end
  end.
Definition mask (n : nat) (axes : list nat) : list bool :=
  map (fun j => existsb (Nat.eqb j) axes) (seq 0 n).
Fixpoint has_dup (l : list nat) : bool :=
  match l with [] => false | h :: r => existsb (Nat.eqb h) r || has_dup r end.
(** [a.sum(axes)] *)
Definition np_sum (a : nda) (axes : list nat) : res nda :=
  if existsb (fun j => Nat.leb (ndim a) j) axes || has_dup axes then Raise ValueError
  else let m := mask (ndim a) axes in
       Ok (mkA (pick false m (shp a))
               (fun i => sumR (map (fun k => el a (merge m i k)) (indices (pick true m (shp a)))))).
(** [np.diagonal(a, 0, i, j)]: axes i and j removed, the diagonal last *)
Definition np_diagonal (a : nda) (i j : nat) : res nda :=
  if Nat.ltb i (ndim a) && Nat.ltb j (ndim a) && negb (Nat.eqb i j)
  then let m := mask (ndim a) [i; j] in
       Ok (mkA (pick false m (shp a) ++ [Nat.min (nth i (shp a) O) (nth j (shp a) O)])
               (fun k => let d := last k O in el a (merge m (removelast k) [d; d])))
  else Raise ValueError.
(** [np.expand_dims(a, k)] *)
Definition np_expand_dims (a : nda) (k : nat) : res nda :=
  if Nat.leb k (ndim a)
  then Ok (mkA (firstn k (shp a) ++ 1%nat :: skipn k (shp a)) (fun i => el a (firstn k i ++ skipn (S k) i)))
  else Raise ValueError.
(** [np.flip(a, k)] *)
Definition np_flip (a : nda) (k : nat) : res nda :=
  if Nat.ltb k (ndim a) then Ok (mkA (shp a) (fun i => el a (flip1 (shp a) i k))) else Raise ValueError.

(** *** Identity matrices *)
Definition delta (a b : nat) : R := if Nat.eqb a b then 1 else 0.
Definition np_eye (n : nat) : nda := mkA [n; n] (fun i => delta (nth 0 i O) (nth 1 i O)).
(** [np.eye(n).reshape(idx)] where [idx] is 1 everywhere but n at the axes a <> b
    of r axes: reshaping moves the two axes of the (symmetric) matrix there. *)
Definition ones_at (r a b n : nat) : list nat := upd_nth b n (upd_nth a n (repeat 1%nat r)).
Definition np_eye_at (r a b n : nat) : nda := mkA (ones_at r a b n) (fun i => delta (nth a i O) (nth b i O)).

(** [np.argsort(l)] for a list of distinct numbers: position of the smallest,
    of the second smallest, ... (insertion of positions by value; stable). *)
Fixpoint ins_pos (l : list nat) (k : nat) (r : list nat) : list nat :=
  match r with
  | [] => [k]
  | h :: r' => if Nat.leb (nth k l O) (nth h l O) then k :: r else h :: ins_pos l k r'
  end.
Definition argsort (l : list nat) : list nat := fold_right (ins_pos l) [] (seq 0 (length l)).
