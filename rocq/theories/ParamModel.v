(** Model of class [Param] and of the (un)flattening functions of
    /repo/maxlike/maxlike_base.py.

    Arrays: an n-dimensional numpy array is its shape together with its
    entries in C order ([a.flatten()]); [reshape] only changes the shape and
    checks the size.  The scalar type [A] is arbitrary: nothing here computes
    with the entries. *)
From Verif Require Import Prelude.

Section Param.
Variable A : Type.

(** numpy array = shape + entries in C order. *)
Record nd (X : Type) := mkNd { nd_shape : list nat; nd_flat : list X }.
Arguments mkNd {X}. Arguments nd_shape {X}. Arguments nd_flat {X}.

Definition nd_wf {X} (a : nd X) : Prop := length (nd_flat a) = prodn (nd_shape a).

(** numpy [x.reshape(shape)]: same entries, size must match. *)
Definition np_reshape {X} (l : list X) (shape : list nat) : res (nd X) :=
  if length l =? prodn shape then Ok (mkNd shape l) else Raise ValueError.

Fixpoint shape_eqb (a b : list nat) : bool :=
  match a, b with
  | [], [] => true
  | x :: a', y :: b' => (x =? y) && shape_eqb a' b'
  | _, _ => false
  end.

(** maxlike_base.py:17-31 [Param]; the random hash is not modelled. A mask
    entry [true] means "fixed". *)
Record param := mkParam { p_shape : list nat; p_vals : list A; p_mask : list bool }.

(** maxlike_base.py:19-30 [Param.__init__(values, mask)]. [mask = None] stands
    for Python's [None] and [False].  The caller's array being made read-only
    is the subject of HeapModel.v. *)
Definition Param_init (values : nd A) (mask : option (nd bool)) : res param :=
  match mask with
  | None => Ok (mkParam (nd_shape values) (nd_flat values)
                        (repeat false (length (nd_flat values))))
  | Some m =>
      let! _ := py_assert (shape_eqb (nd_shape m) (nd_shape values)) in
      Ok (mkParam (nd_shape values) (nd_flat values) (nd_flat m))
  end.

(** A parameter as produced by [Param_init] from well-formed arrays. *)
Definition param_wf (p : param) : Prop :=
  length (p_vals p) = prodn (p_shape p) /\ length (p_mask p) = prodn (p_shape p).

(** Boolean indexing [values[m]] in C order. *)
Fixpoint bool_index {X} (vals : list X) (m : list bool) : list X :=
  match vals, m with
  | v :: vs, b :: bs => if b then v :: bool_index vs bs else bool_index vs bs
  | _, _ => []
  end.

(** maxlike_base.py:32-33 [compressed]. *)
Definition compressed (p : param) : list A := bool_index (p_vals p) (map negb (p_mask p)).

(** maxlike_base.py:35-36 [count]. *)
Definition p_count (p : param) : nat := count_occ bool_dec (p_mask p) false.

(** [p.mask.sum()], used at maxlike_base.py:246 and 273. *)
Definition p_nfixed (p : param) : nat := count_occ bool_dec (p_mask p) true.

(** [p.values[p.mask]], used at maxlike_base.py:259. *)
Definition fixed_vals (p : param) : list A := bool_index (p_vals p) (p_mask p).

(** maxlike_base.py:224-226 [fix_map]: positions of the True entries minus
    [arange]. *)
Fixpoint positions_from (k : nat) (m : list bool) : list nat :=
  match m with
  | [] => []
  | true :: r => k :: positions_from (S k) r
  | false :: r => positions_from (S k) r
  end.

Fixpoint minus_arange (k : nat) (l : list nat) : list nat :=
  match l with [] => [] | x :: r => (x - k) :: minus_arange (S k) r end.

Definition fix_map (m : list bool) : list nat := minus_arange 0 (positions_from 0 m).

(** numpy [np.insert(arr, idx, vals)] with a sequence [idx] of indices into the
    ORIGINAL 1-d array: value [vals[k]] goes before [arr[idx[k]]], values with
    the same index keep their order.  An index beyond [len(arr)] raises
    IndexError; [vals] must have the length of [idx] (or broadcast, length 1). *)
Fixpoint values_at {X} (i : nat) (idx : list nat) (vals : list X) : list X :=
  match idx, vals with
  | k :: ks, v :: vs => if k =? i then v :: values_at i ks vs else values_at i ks vs
  | _, _ => []
  end.

Fixpoint insert_from {X} (i : nat) (arr : list X) (idx : list nat) (vals : list X) : list X :=
  match arr with
  | [] => values_at i idx vals
  | a :: r => values_at i idx vals ++ a :: insert_from (S i) r idx vals
  end.

Definition np_insert {X} (arr : list X) (idx : list nat) (vals : list X) : res (list X) :=
  if existsb (fun k => length arr <? k) idx then Raise IndexError
  else if length vals =? length idx then Ok (insert_from 0 arr idx vals)
  else match vals with
       | [v] => Ok (insert_from 0 arr idx (repeat v (length idx)))
       | _ => Raise ValueError
       end.

(** [np.insert(arr, idx, scalar)]: the scalar is broadcast. *)
Definition np_insert_scalar {X} (arr : list X) (idx : list nat) (v : X) : res (list X) :=
  np_insert arr idx (repeat v (length idx)).

(** maxlike_base.py:232-240, scalar branch of [_reshape_array]. [s0] is the
    running offset. *)
Fixpoint reshape_scalar (flat : list A) (val : A) (s0 : nat) (ps : list param)
  : res (list param) :=
  match ps with
  | [] => Ok []
  | p :: r =>
      let s1 := s0 + p_count p in
      let! l := np_insert_scalar (slice s0 s1 flat) (fix_map (p_mask p)) val in
      let! data := np_reshape l (p_shape p) in
      let! q := Param_init data (Some (mkNd (p_shape p) (p_mask p))) in
      let! qs := reshape_scalar flat val s1 r in
      Ok (q :: qs)
  end.

(** maxlike_base.py:242-253, array branch of [_reshape_array]. *)
Fixpoint reshape_vals (flat vals : list A) (s0 f0 : nat) (ps : list param)
  : res (list param) :=
  match ps with
  | [] => Ok []
  | p :: r =>
      let s1 := s0 + p_count p in
      let f1 := f0 + p_nfixed p in
      let! l := np_insert (slice s0 s1 flat) (fix_map (p_mask p)) (slice f0 f1 vals) in
      let! data := np_reshape l (p_shape p) in
      let! q := Param_init data (Some (mkNd (p_shape p) (p_mask p))) in
      let! qs := reshape_vals flat vals s1 f1 r in
      Ok (q :: qs)
  end.

(** maxlike_base.py:213-254 [_reshape_array(flat_array, val)]; [self_params]
    is [self.params]. *)
Inductive filler := FScalar (v : A) | FArray (vs : list A).
Definition reshape_array (self_params : list param) (flat : list A) (val : filler)
  : res (list param) :=
  match val with
  | FScalar v => reshape_scalar flat v 0 self_params
  | FArray vs => reshape_vals flat vs 0 0 self_params
  end.

(** numpy [np.concatenate] of 1-d arrays: an empty list raises ValueError. *)
Definition np_concatenate {X} (ls : list (list X)) : res (list X) :=
  match ls with [] => Raise ValueError | _ => Ok (concat ls) end.

(** maxlike_base.py:256-259 [_reshape_params]. *)
Definition reshape_params (self_params : list param) (params_free : list A)
  : res (list param) :=
  let! vals := np_concatenate (map fixed_vals self_params) in
  reshape_array self_params params_free (FArray vals).

(** maxlike_base.py:473: the flat vector [fit] starts from. *)
Definition flat_params (ps : list param) : res (list A) := np_concatenate (map compressed ps).

(** 2-d arrays: shape and rows. *)
Record mat := mkMat { m_shape : list nat; m_rows : list (list A) }.
Definition mat_wf (m : mat) : Prop :=
  exists r c, m_shape m = [r; c] /\ length (m_rows m) = r /\ Forall (fun row => length row = c) (m_rows m).

(** [np.insert(block, idx, val, 0)]: constant rows; [ncols] is the number of
    columns of the block. *)
Definition insert_rows (rows : list (list A)) (ncols : nat) (idx : list nat) (v : A) : res (list (list A)) :=
  np_insert_scalar rows idx (repeat v ncols).
(** [np.insert(block, idx, val, 1)]. *)
Definition insert_cols (rows : list (list A)) (idx : list nat) (v : A) : res (list (list A)) :=
  rmapM (fun row => np_insert_scalar row idx v) rows.

(** maxlike_base.py:279-283: one block of the result. *)
Definition reshape_block (rows : list (list A)) (v : A) (si0 si1 sj0 sj1 : nat) (pi pj : param)
  : res (nd A) :=
  let block := map (slice sj0 sj1) (slice si0 si1 rows) in
  let! b1 := insert_rows block (sj1 - sj0) (fix_map (p_mask pi)) v in
  let! b2 := insert_cols b1 (fix_map (p_mask pj)) v in
  np_reshape (concat b2) (p_shape pi ++ p_shape pj).

(** maxlike_base.py:267-273: the running sums [s_] of the free counts, each
    paired with its parameter. *)
Fixpoint offsets (s : nat) (ps : list param) : list (nat * param) :=
  match ps with [] => [] | p :: r => (s, p) :: offsets (s + p_count p) r end.

(** maxlike_base.py:261-284 [_reshape_matrix(matrix, val)] for a scalar
    [val] (the only kind used in the code base: lines 296 and 306; the
    array branch, lines 286-293, is not modelled). *)
Definition reshape_matrix (self_params : list param) (matrix : mat) (v : A)
  : res (list (list (nd A))) :=
  match m_shape matrix with
  | [r; c] =>
      if negb (r =? c) then Raise ValueError
      else
        let bl := offsets 0 self_params in
        rmapM (fun '(si, pi) =>
          rmapM (fun '(sj, pj) =>
            reshape_block (m_rows matrix) v si (si + p_count pi) sj (sj + p_count pj) pi pj) bl) bl
  | _ => Raise ValueError
  end.

(** maxlike_base.py:309-319 [std_error].  [inv], [neg] and [sqrt] are numpy's
    ([inv] may raise LinAlgError); [nan] the default filler of
    [_reshape_array]; [n_constraints = len(self.constraint)].
    Line 317: the slice bound [-cut] with [cut = None] raises TypeError,
    after [inv], [diag] have been evaluated. *)
Variable inv : mat -> res mat.
Variables (neg sqrt : A -> A) (nan : A).

Definition diag_of (m : mat) : list A :=
  concat (map (fun '(k, row) => match nth_error row k with Some x => [x] | None => [] end)
              (combine (seq 0 (length (m_rows m))) (m_rows m))).

Definition map_mat (f : A -> A) (m : mat) : mat := mkMat (m_shape m) (map (map f) (m_rows m)).

Definition slice_neg {X} (l : list X) (cut : option nat) : res (list X) :=
  match cut with
  | None => Raise TypeError                       (* -None *)
  | Some c => Ok (firstn (length l - c) l)        (* l[:-c], c > 0 *)
  end.

Definition std_error (self_params : list param) (n_constraints : nat) (flat_hess_ : mat)
  : res (list (list nat * list A * list bool)) :=
  let cut := match n_constraints with 0 => None | c => Some c end in
  let! iv := inv flat_hess_ in
  let! d := slice_neg (diag_of (map_mat neg iv)) cut in
  let! ps := reshape_array self_params (map sqrt d) (FScalar nan) in
  Ok (map (fun p => (p_shape p, p_vals p, p_mask p)) ps).   (* as_masked, line 38-39 *)

(** maxlike_base.py:295-296 [fisher_matrix]; [zero] is Python's 0. *)
Definition fisher_matrix (zero : A) (self_params : list param) (flat_hess_ : mat) :=
  reshape_matrix self_params flat_hess_ zero.

(** maxlike_base.py:298-307 [error_matrix]; [pinvh] is scipy's. *)
Definition error_matrix (pinvh : mat -> res mat) (self_params : list param) (flat_hess_ : mat) :=
  let! pv := pinvh flat_hess_ in
  reshape_matrix self_params (map_mat neg pv) nan.

(** maxlike_base.py:183-185 and 206-208: the integer [k].  [np.ma.count] of a
    [Param] goes through [Param.__array__] (line 41), which returns the plain
    values, so the mask is not seen and every entry is counted. *)
Definition dof (self_params : list param) (nb_extra_params : Z) (n_constraints : nat) : Z :=
  (Z.of_nat (sumn (map (fun p => length (p_vals p)) self_params))
   + nb_extra_params - Z.of_nat n_constraints)%Z.

End Param.

Arguments mkNd {X}. Arguments nd_shape {X}. Arguments nd_flat {X}.
Arguments mkParam {A}. Arguments p_shape {A}. Arguments p_vals {A}. Arguments p_mask {A}.
Arguments param_wf {A}. Arguments compressed {A}. Arguments p_count {A}. Arguments p_nfixed {A}.
Arguments fixed_vals {A}. Arguments reshape_array {A}. Arguments reshape_params {A}.
Arguments reshape_scalar {A}. Arguments reshape_vals {A}.
Arguments flat_params {A}. Arguments mkMat {A}. Arguments m_shape {A}. Arguments m_rows {A}.
Arguments mat_wf {A}. Arguments reshape_matrix {A}. Arguments reshape_block {A}. Arguments Param_init {A}.
Arguments FScalar {A}. Arguments FArray {A}. Arguments std_error {A}. Arguments fisher_matrix {A}.
Arguments error_matrix {A}. Arguments offsets {A}. Arguments diag_of {A}. Arguments map_mat {A}.
Arguments dof {A}. Arguments insert_rows {A}. Arguments insert_cols {A}. Arguments nd_wf {X}. Arguments np_reshape {X}.
Arguments np_concatenate {X}. Arguments bool_index {X}. Arguments np_insert {X}. Arguments np_insert_scalar {X}.
Arguments insert_from {X}. Arguments values_at {X}. Arguments slice_neg {X}.
