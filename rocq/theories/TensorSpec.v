(** What a Tensor means: the dense array of its entries, with the four groups of
    axes x, y, features, dim.  An axis mapped to feature f stands for a diagonal:
    the entry is 0 unless the coordinate equals the coordinate of feature f. *)
From Verif Require Import Prelude DenseModel NDArray TensorModel.
From Coq Require Import Reals.
Open Scope R_scope.

(** stored coordinate of a group: 0 along mapped axes *)
Fixpoint stored (m : amap) (x : idx) : idx :=
  match m, x with
  | Some _ :: m', _ :: x' => O :: stored m' x'
  | None :: m', k :: x' => k :: stored m' x'
  | _, _ => x
  end.
(** product of the Kronecker deltas of the mapped axes *)
Fixpoint deltas (m : amap) (x : idx) (nd : idx) : R :=
  match m, x with
  | Some f :: m', k :: x' => delta k (nth f nd O) * deltas m' x' nd
  | None :: m', _ :: x' => deltas m' x' nd
  | _, _ => 1
  end.
(** sizes of a group: a mapped axis has the size of its feature *)
Fixpoint msizes (m : amap) (sx : list nat) (nd : list nat) : list nat :=
  match m, sx with
  | Some f :: m', _ :: s' => nth f nd 1%nat :: msizes m' s' nd
  | None :: m', s :: s' => s :: msizes m' s' nd
  | _, _ => sx
  end.

(** the groups of the stored shape *)
Definition sX (t : tensor) : list nat := firstn (xd t) (shp (tv t)).
Definition sY (t : tensor) : list nat := firstn (yd t) (skipn (xd t) (shp (tv t))).
Definition sN (t : tensor) : list nat := firstn (nn t) (skipn (xd t + yd t) (shp (tv t))).
Definition sD (t : tensor) : list nat := skipn (xd t + yd t + nn t) (shp (tv t)).

Definition den (t : tensor) : dt :=
  DT (msizes (xm t) (sX t) (sN t ++ sD t)) (msizes (ym t) (sY t) (sN t ++ sD t)) (sN t) (sD t)
     (fun x y n d => el (tv t) (stored (xm t) x ++ stored (ym t) y ++ n ++ d)
                     * deltas (xm t) x (n ++ d) * deltas (ym t) y (n ++ d)).

(** Two dense tensors are the same: same shape, same entries. *)
Definition dsame (a b : dt) : Prop :=
  xs a = xs b /\ ys a = ys b /\ ns a = ns b /\ ds a = ds b /\
  forall x y n d, In x (indices (xs a)) -> In y (indices (ys a)) -> In n (indices (ns a)) -> In d (indices (ds a)) ->
    at_ a x y n d = at_ b x y n d.

(** *** Well-formed tensors *)
(** targets of a map *)
Fixpoint targets (m : amap) : list nat :=
  match m with [] => [] | Some f :: r => f :: targets r | None :: r => targets r end.
(** a map for a group of stored sizes [sx] into [r] axes: not longer than the
    group, distinct targets, mapped axes stored with size 1 *)
Fixpoint single_at (m : amap) (sx : list nat) : Prop :=
  match m, sx with
  | [], _ => True
  | _ :: _, [] => False
  | Some _ :: m', s :: s' => s = 1%nat /\ single_at m' s'
  | None :: m', _ :: s' => single_at m' s'
  end.
Definition map_ok (m : amap) (sx : list nat) (r : nat) : Prop :=
  single_at m sx /\ NoDup (targets m) /\ Forall (fun f => f < r)%nat (targets m).
Record wf (t : tensor) : Prop := mkWF {
  wf_len : length (shp (tv t)) = (xd t + yd t + nn t + dm t)%nat;
  wf_pos : Forall (fun s => 1 <= s)%nat (shp (tv t));
  wf_x : map_ok (xm t) (sX t) (nn t + dm t);
  wf_y : map_ok (ym t) (sY t) (nn t + dm t) }.
(** all maps point to features (not to dim axes) *)
Definition to_features (t : tensor) : Prop :=
  Forall (fun f => f < nn t)%nat (targets (xm t)) /\ Forall (fun f => f < nn t)%nat (targets (ym t)).
Definition unmapped (m : amap) : Prop := targets m = [].

(** Meaning of a GenericTensor: the broadcast sum of its elements. *)
Definition iden (e : item) : dt :=
  match e with
  | IT t => den t
  | INum c => dconst c
  | IArr a => DT [] [] (shp a) [] (fun _ _ n _ => el a n)
  end.
Definition gden (g : gtensor) : dt := fold_left dadd (map iden (els g)) dzero.
Definition vden (v : pval) : dt :=
  match v with
  | PT t => den t
  | PG g => gden g
  | PNum c => dconst c
  | PArr a => DT [] [] (shp a) [] (fun _ _ n _ => el a n)
  end.
