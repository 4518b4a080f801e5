(** Hypotheses of the theorems about operations between two Tensors. *)
From Verif Require Import Prelude DenseModel NDArray NDProofs TensorModel TensorSpec.
From Coq Require Import Reals.
Import List ListNotations.
Local Open Scope nat_scope.

(** Two groups of axes that numpy can broadcast: one is absent, or same number
    of axes and sizes equal or 1. *)
Definition bok (a b : list nat) : Prop := a = [] \/ b = [] \/ Forall2 bcompat a b.
(** the features that the map of one operand points to are not stretched by the
    other operand *)
Definition full (m : amap) (sn sn' : list nat) : Prop := forall f, In f (targets m) -> nth f sn' 1 <= nth f sn 1.
Record compat (s o : tensor) : Prop := mkCompat {
  cp_x : bok (sX s) (sX o); cp_y : bok (sY s) (sY o); cp_n : bok (sN s) (sN o); cp_d : bok (sD s) (sD o);
  cp_xs : full (xm s) (sN s) (sN o); cp_ys : full (ym s) (sN s) (sN o);
  cp_xo : full (xm o) (sN o) (sN s); cp_yo : full (ym o) (sN o) (sN s) }.
(** a group: same map in both operands, or one of them does not have the group *)
Definition same_or_absent (ms mo : amap) (gs go : list nat) : Prop :=
  ms = mo \/ (mo = [] /\ go = []) \/ (ms = [] /\ gs = []).
(** what Tensor.transpose handles: one of the groups is absent, both have one
    axis, or all axes of the two groups are stored with size 1 (diagonals) *)
Definition transposable (t : tensor) : Prop :=
  xd t = 0 \/ yd t = 0 \/ (xd t = 1 /\ yd t = 1) \/ Forall (fun s => s = 1) (sX t ++ sY t).
(** two dense tensors that can be combined entry by entry *)
Record dcompat (a b : dt) : Prop := mkDCompat {
  dc_x : bok (xs a) (xs b); dc_y : bok (ys a) (ys b); dc_n : bok (ns a) (ns b); dc_d : bok (ds a) (ds b) }.

(** *** Contractions: the x axes of [s] are summed against the features of [o] *)
(** every feature that [mo] points to is an axis of [s] that is itself a diagonal *)
Definition chained (ms mo : amap) : Prop := forall j, In j (targets mo) -> exists g, nth_error ms j = Some (Some g).
Record contractible (s o : tensor) : Prop := mkContr {
  ct_n : xd s = nn o;
  ct_k : Forall2 bcompat (sN o) (xs (den s));
  ct_d : bok (sD o) (sD s);
  (* no diagonal axis of [s] is stretched by [o], no diagonal of [o] by [s] *)
  ct_s : forall j f, nth_error (xm s) j = Some (Some f) -> nth j (sN o) 1 <= nth j (xs (den s)) 1;
  ct_x : full (xm o) (sN o) (xs (den s));
  ct_y : full (ym o) (sN o) (xs (den s)) }.

(** *** Formal sums *)
(** A common shape of several tensors: one list of sizes per group. *)

Record shape4 := SH { SX : list nat; SY : list nat; SN : list nat; SD : list nat }.
(** a group that broadcasts to [S]: absent, or every size is 1 or the one of [S] *)
Definition below (g S : list nat) : Prop := g = [] \/ Forall2 (fun s s' => s = 1 \/ s = s') g S.
Record fits (S : shape4) (t : tensor) : Prop := mkFits {
  ft_wf : wf t; ft_feat : to_features t; ft_rank : shp (tv t) <> [];
  ft_x : below (xs (den t)) (SX S); ft_y : below (ys (den t)) (SY S);
  ft_n : below (sN t) (SN S); ft_d : below (sD t) (SD S);
  (* features that a diagonal runs along have their full size *)
  ft_full : forall f, In f (targets (xm t)) \/ In f (targets (ym t)) -> nth f (sN t) 1 = nth f (SN S) 1 }.
Definition gfits (S : shape4) (g : gtensor) : Prop := Forall (fun e => exists t, e = IT t /\ fits S t) (els g).
Definition spos (S : shape4) : Prop := posl (SX S) /\ posl (SY S) /\ posl (SN S) /\ posl (SD S).
(** what GenericTensor.sum needs: the numbers of axes recorded in the formal sum
    are those of its meaning, and every element has the feature and dim axes *)
Record uniform (g : gtensor) : Prop := mkUni {
  un_x : gx g = length (xs (gden g)); un_y : gy g = length (ys (gden g));
  un_nd : forall t, In (IT t) (els g) -> nn t = gn g /\ dm t = gd g }.
(** reversing dim axes *)
Definition dflip_dim (a : dt) (where_ : list nat) : dt :=
  DT (xs a) (ys a) (ns a) (ds a) (fun x y n d => at_ a x y n (flip_idx (ds a) where_ d)).
Definition vfits (S : shape4) (v : pval) : Prop := match v with PT t => fits S t | PG g => gfits S g | _ => False end.
(** arithmetic expressions with +, - and negation *)
Inductive expr := Leaf (t : tensor) | Add (a b : expr) | Sub (a b : expr) | Neg (a : expr).
(** what Python computes *)
Fixpoint pyeval (e : expr) : res pval :=
  match e with
  | Leaf t => Ok (PT t)
  | Add a b => let! u := pyeval a in let! v := pyeval b in pbin u v ADD
  | Sub a b => let! u := pyeval a in let! v := pyeval b in pbin u v SUB
  | Neg a => let! u := pyeval a in pneg u
  end.
(** what the expression means on dense arrays *)
Fixpoint meaning (e : expr) : dt :=
  match e with
  | Leaf t => den t
  | Add a b => dbin Rplus (meaning a) (meaning b)
  | Sub a b => dbin Rminus (meaning a) (meaning b)
  | Neg a => dneg (meaning a)
  end.
Fixpoint leaves (e : expr) : list tensor :=
  match e with Leaf t => [t] | Add a b | Sub a b => leaves a ++ leaves b | Neg a => leaves a end.
(** quotients: the divisor has no diagonal axis *)
Definition divisible (s o : tensor) (op : top) : Prop :=
  op = MUL \/ (op = DIV /\ xm o = [] /\ ym o = []) \/ (op = RDIV /\ xm s = [] /\ ym s = []).
(** *** Products of a diagonal with a tensor stored in full *)
(** the axes of [X] that [m] maps have the size of their feature, which is one of the last two axes *)
Fixpoint fulldiag (m : amap) (X N : list nat) : Prop :=
  match m, X with
  | Some f :: m', s :: X' => (f < length N)%nat /\ (length N <= f + 2)%nat /\ s = nth f N 0%nat /\ fulldiag m' X' N
  | None :: m', _ :: X' => fulldiag m' X' N
  | [], _ => True
  | _, [] => False
  end.
(** [s] is diagonal in its x axes, [o] has the same x axes stored in full; the
    features the diagonals run along have the same sizes in both and are among
    the last two axes of [o] *)
Record extractable (s o : tensor) : Prop := mkEx {
  ex_m : xm s <> []; ex_o : xm o = [];
  ex_fd : fulldiag (xm s) (sX o) (sN o ++ sD o);
  ex_t : forall f, In f (targets (xm s)) -> (f < nn o)%nat /\ nth f (sN s) 1%nat = nth f (sN o) 1%nat }.
