(** Model of /repo/maxlike/preprocessing.py.  pandas is modelled by association
    lists: a Series is its index levels plus rows (labels, value) in order; groupby
    gives, for each distinct label tuple, the values of its rows in order; reindex
    looks a tuple up and gives NaN ([None]) when it is absent; fillna(0) turns NaN
    into 0 (also a NaN computed by the transformation).  NaN labels are not
    modelled.  Labels are elements of any type with a decidable total order. *)
From Coq Require Import Reals.
From Verif Require Import Prelude.
Local Open Scope R_scope.

Section Labels.
Variable L : Type.
Variable leb : L -> L -> bool.
Definition leqb (a b : L) : bool := leb a b && leb b a.

(** sorted(...): insertion sort *)
Fixpoint insert (x : L) (l : list L) : list L :=
  match l with
  | [] => [x]
  | y :: r => if leb x y then x :: l else y :: insert x r
  end.
Definition sorted (l : list L) : list L := fold_right insert [] l.
(** set(...) / unique(): keep one copy of each *)
Fixpoint dedup (l : list L) : list L :=
  match l with
  | [] => []
  | x :: r => if existsb (leqb x) r then dedup r else x :: dedup r
  end.
Fixpoint keyeqb (a b : list L) : bool :=
  match a, b with
  | [], [] => true
  | x :: a', y :: b' => leqb x y && keyeqb a' b'
  | _, _ => false
  end.

(** [pd.MultiIndex.from_product(axis)]: first level slowest. *)
Fixpoint from_product (axis : list (list L)) : list (list L) :=
  match axis with
  | [] => [[]]
  | a :: r => flat_map (fun x => map (cons x) (from_product r)) a
  end.

(** groupby(index).agg(f): one entry per distinct key, in order of first
    appearance (pandas sorts; only look-ups by key follow). *)
Definition group {V} (rows : list (list L * V)) (k : list L) : list V :=
  map snd (filter (fun r => keyeqb (fst r) k) rows).
Fixpoint dedup_keys (l : list (list L)) : list (list L) :=
  match l with
  | [] => []
  | x :: r => if existsb (keyeqb x) r then dedup_keys r else x :: dedup_keys r
  end.
Definition groupby_agg {V} (rows : list (list L * V)) (f : list V -> option R) : list (list L * option R) :=
  map (fun k => (k, f (group rows k))) (dedup_keys (map fst rows)).
(** .reindex(index).fillna(0) on one column *)
Fixpoint lookup (tab : list (list L * option R)) (k : list L) : option R :=
  match tab with
  | [] => None
  | (k', v) :: r => if keyeqb k' k then v else lookup r k
  end.
Definition reindex_fillna (tab : list (list L * option R)) (index : list (list L)) : list R :=
  map (fun k => match lookup tab k with Some v => v | None => 0 end) index.

(** The names of levels and of transformations are natural numbers. *)
Definition assoc {A} (d : list (nat * A)) (k : nat) : option A :=
  match find (fun e => Nat.eqb (fst e) k) d with Some (_, v) => Some v | None => None end.
(** preprocessing.py:36-41 and 59-63: [level.sort_values()], then for the named
    levels [sorted(set(axis[k]).union(add_axis[level.name]))].  Levels of a pandas
    index are duplicate free but may contain unused labels. *)
Definition axes (levels : list (nat * list L)) (add_axis : option (list (nat * list L))) : list (list L) :=
  map (fun nl => let a := sorted (snd nl) in
        match add_axis with
        | None => a
        | Some d => match assoc d (fst nl) with
                    | Some extra => sorted (dedup (a ++ extra))
                    | None => a
                    end
        end) levels.
(** preprocessing.py:30-53, MultiIndex branch.  [None] for [transformations] is
    [{"N": np.sum}], the name N being 0 here.  An array is its shape and its
    row-major values. *)
Definition rsum (l : list R) : R := fold_right Rplus 0 l.
Definition N_ : nat := 0%nat.
Definition prepare_series (levels : list (nat * list L)) (rows : list (list L * R))
  (transformations : option (list (nat * (list R -> option R)))) (add_axis : option (list (nat * list L)))
  : list (nat * (list nat * list R)) * list (list L) :=
  let trs := match transformations with None => [(N_, fun l => Some (rsum l))] | Some t => t end in
  let ax := axes levels add_axis in
  let shape := map (@length L) ax in
  (map (fun t => (fst t, (shape, reindex_fillna (groupby_agg rows (snd t)) (from_product ax)))) trs, ax).
(** Plain-index branch (lines 44-50): one level, whose axis is the sorted set of the
    labels that occur, united with [add_axis]. *)
Definition prepare_series_flat (rows : list (L * R))
  (transformations : option (list (nat * (list R -> option R)))) (add_axis : option (list L))
  : list (nat * (list nat * list R)) * list L :=
  let trs := match transformations with None => [(N_, fun l => Some (rsum l))] | Some t => t end in
  let axis := sorted (dedup (map fst rows)) in
  let axis := match add_axis with None => axis | Some e => sorted (dedup (axis ++ e)) end in
  let rows' := map (fun r => ([fst r], snd r)) rows in
  (map (fun t => (fst t, ([length axis], reindex_fillna (groupby_agg rows' (snd t)) (map (fun x => [x]) axis)))) trs, axis).
(** preprocessing.py:56-72.  A row is (labels, (weight, result)); [res['N'] = w]
    overwrites or adds the entry N. *)
Definition dict_set {A} (d : list (nat * A)) (k : nat) (v : A) : list (nat * A) :=
  if existsb (fun e => Nat.eqb (fst e) k) d then map (fun e => if Nat.eqb (fst e) k then (k, v) else e) d
  else d ++ [(k, v)].
Definition prepare_dataframe (levels : list (nat * list L)) (rows : list (list L * (R * R)))
  (transformations : list (nat * (list R -> option R))) (add_axis : option (list (nat * list L)))
  : list (nat * (list nat * list R)) * list (list L) :=
  let ax := axes levels add_axis in
  let shape := map (@length L) ax in
  let new_index := from_product ax in
  let w := reindex_fillna (groupby_agg (map (fun r => (fst r, fst (snd r))) rows) (fun l => Some (rsum l))) new_index in
  let wr := map (fun r => (fst r, snd (snd r) * fst (snd r))) rows in
  let res := map (fun t => (fst t, (shape, reindex_fillna (groupby_agg wr (snd t)) new_index))) transformations in
  (dict_set res N_ (shape, w), ax).
End Labels.

(** preprocessing.py:75-81 for a series of integers.  [X] has size-1 columns;
    np.insert(X, -1, col, 1) puts the new column before the last one and raises
    IndexError when there is no column. *)
Definition insert_before_last {A} (l : list A) (x : A) : res (list A) :=
  match l with
  | [] => Raise IndexError
  | _ => Ok (removelast l ++ [x] ++ skipn (length l - 1) l)
  end.
Definition df_count_row (size : nat) (v : Z) : res (list bool) :=
  let X := map (fun c => Z.eqb v (Z.of_nat c)) (seq 0 (size - 1)) in
  insert_before_last X (negb (existsb (fun b => b) X)).
Definition df_count (series : list Z) (size : nat) : res (list (list bool)) :=
  if (size <=? 1)%nat then Raise IndexError else rmapM (df_count_row size) series.
