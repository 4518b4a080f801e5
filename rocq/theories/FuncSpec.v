(** What it means for the derivatives reported by a function object to be
    right.  Only the method results appear here, read entry by entry. *)
From Verif Require Import Prelude DenseModel FuncModel AnalyticSpec.
From Coquelicot Require Import Coquelicot.
From Coq Require Import Reals.
Import List ListNotations.
Open Scope R_scope.

(** Axes of a parameter or of a value: (features, dim). *)
Notation pst := (list nat * list nat)%type (only parsing).
(** numpy shape *)
Definition flat (s : pst) : list nat := fst s ++ snd s.

Definition has_st (p : dt) (s : pst) : Prop :=
  xs p = [] /\ ys p = [] /\ ns p = fst s /\ ds p = snd s.
Definition has_sts (ps : list dt) (ss : list pst) : Prop := Forall2 has_st ps ss.

(** A result of the same shape whatever the values: *)
Definition val (r : res dt) : dt := match r with Ok t => t | Raise _ => dzero end.

(** A curve of parameters of shapes [ss], differentiable at time [t] with
    velocity [v i x] for entry [x] of parameter [i]. *)
Definition smooth_curve (ss : list pst) (c : R -> list dt) (v : nat -> idx -> R) (t : R) : Prop :=
  (forall s, has_sts (c s) ss) /\
  forall i x, (i < length ss)%nat -> In x (indices (flat (nth i ss ([], [])))) ->
    is_derive (fun s => parr (nth i (c s) dzero) x) t (v i x).

(** Pairing of a gradient with a velocity. *)
Definition pairing (ss : list pst) (G : nat -> idx -> R) (v : nat -> idx -> R) : R :=
  Rsum (fun i => Rsum (fun x => G i x * v i x) (indices (flat (nth i ss ([], [])))))
       (seq 0 (length ss)).

(** [grad] is the derivative of the value: along every differentiable curve,
    the derivative of every entry of the value is the pairing of the gradient
    with the velocity. *)
Definition grad_correct (ss : list pst) (out : pst) (D : list dt -> Prop) (f : sfun) : Prop :=
  forall c v t, smooth_curve ss c v t -> D (c t) ->
  forall n d, In n (indices (fst out)) -> In d (indices (snd out)) ->
    is_derive (fun s => get (val (f_call f (c s))) [] [] n d) t
      (pairing ss (fun i x => get (val (f_grad f (c t) i)) x [] n d) v).

(** The full matrix of second derivatives read off the lower triangle. *)
Definition hess_at (f : sfun) (ps : list dt) (i j : nat) (x y n d : idx) : R :=
  if Nat.leb j i then get (val (f_hess f ps i j)) x y n d
  else get (val (f_hess f ps j i)) y x n d.

(** [hess] is the derivative of the gradient. *)
Definition hess_correct (ss : list pst) (out : pst) (D : list dt -> Prop) (f : sfun) : Prop :=
  forall c v t, smooth_curve ss c v t -> D (c t) ->
  forall i x n d, (i < length ss)%nat -> In x (indices (flat (nth i ss ([], [])))) ->
    In n (indices (fst out)) -> In d (indices (snd out)) ->
    is_derive (fun s => get (val (f_grad f (c s) i)) x [] n d) t
      (pairing ss (fun j y => hess_at f (c t) i j x y n d) v).

(** Diagonal blocks are symmetric matrices. *)
Definition hess_sym (ss : list pst) (f : sfun) : Prop :=
  forall ps i, has_sts ps ss -> (i < length ss)%nat ->
    deq (val (f_hess f ps i i)) (dtrans (val (f_hess f ps i i))).

(** ---- Well-formed results ----
    Axes of a result may be missing or of size 1 where the value has a larger
    axis (numpy broadcasts them), but a result that is not identically zero has
    the axes of its parameters in full. *)
Definition ax_le (a b : list nat) : Prop := Forall2 (fun s s' => s = s' \/ (s = 1 /\ 1 <= s'))%nat a b.
Definition ax_sub (a b : list nat) : Prop := a = [] \/ ax_le a b.
Definition isnil (t : dt) : Prop := forall x y n d, get t x y n d = 0.
Definition tst (sx sy : list nat) (out : pst) (t : dt) : Prop :=
  (xs t = [] \/ xs t = sx) /\ (ys t = [] \/ ys t = sy) /\
  ax_sub (ns t) (fst out) /\ ax_sub (ds t) (snd out) /\
  (isnil t \/ (xs t = sx /\ ys t = sy /\
               length (ns t) = length (fst out) /\ length (ds t) = length (snd out))).

(** Shape of a broadcast sum or product of values of shapes [os]. *)
Definition join (os : list pst) : pst :=
  fold_left (fun a o => (bmax (fst a) (fst o), bmax (snd a) (snd o))) os ([], []).
(** The shapes can be broadcast against each other. *)
Definition broadcastable (os : list pst) : Prop :=
  Forall (fun o => ax_le (fst o) (fst (join os)) /\ ax_le (snd o) (snd (join os))) os.

Record wellformed (ss : list pst) (out : pst) (f : sfun) : Prop := mkWF {
  (* calls of the right shape succeed *)
  wf_call : forall ps, has_sts ps ss -> exists v, f_call f ps = Ok v /\ has_st v out;
  wf_grad : forall ps i, has_sts ps ss -> (i < length ss)%nat ->
    exists g, f_grad f ps i = Ok g /\ tst (flat (nth i ss ([], []))) [] out g;
  wf_hess : forall ps i j, has_sts ps ss -> (i < length ss)%nat -> (j <= i)%nat ->
    exists h, f_hess f ps i j = Ok h /\
              tst (flat (nth i ss ([], []))) (flat (nth j ss ([], []))) out h;
  (* results depend on the entries of the parameters only *)
  wf_ext : forall ps ps', has_sts ps ss -> has_sts ps' ss -> Forall2 deq ps ps' ->
    deq (val (f_call f ps)) (val (f_call f ps')) /\
    (forall i, (i < length ss)%nat -> deq (val (f_grad f ps i)) (val (f_grad f ps' i))) /\
    (forall i j, (i < length ss)%nat -> (j <= i)%nat ->
       deq (val (f_hess f ps i j)) (val (f_hess f ps' i j)));
  (* null markers tell the truth *)
  wf_nullg : f_nullg f = true -> forall ps i, has_sts ps ss -> isnil (val (f_grad f ps i));
  wf_nullh : f_nullh f = true -> forall ps i j, has_sts ps ss -> isnil (val (f_hess f ps i j));
  wf_nullgh : f_nullg f = true -> forall ps i j, has_sts ps ss -> isnil (val (f_hess f ps i j)) }.

(** [hess(i, j)] may also be asked for i < j, and gives the transpose of
    [hess(j, i)] (lower triangle requests are covered by [wellformed]). *)
Definition hess_both (ss : list pst) (out : pst) (f : sfun) : Prop :=
  forall ps i j, has_sts ps ss -> (i < j)%nat -> (j < length ss)%nat ->
  exists h, f_hess f ps i j = Ok h /\
    tst (flat (nth i ss ([], []))) (flat (nth j ss ([], []))) out h /\
    deq h (dtrans (val (f_hess f ps j i))).

(** A function whose gradients and Hessians are right on [D]. *)
Record correct (ss : list pst) (out : pst) (D : list dt -> Prop) (f : sfun) : Prop := mkCorrect {
  c_wf : wellformed ss out f;
  c_grad : grad_correct ss out D f;
  c_hess : hess_correct ss out D f;
  c_sym : hess_sym ss f }.

(** [eval] returns what the separate calls return. *)
Definition eval_agrees (ss : list pst) (out : pst) (f : sfun) : Prop :=
  forall ps, has_sts ps ss ->
  exists v gs hs, f_eval f ps = Ok (v, gs, hs) /\
    has_st v out /\ deq v (val (f_call f ps)) /\
    length gs = length ss /\ length hs = length ss /\
    (forall i, (i < length ss)%nat ->
       tst (flat (nth i ss ([], []))) [] out (nth i gs dzero) /\
       deq (nth i gs dzero) (val (f_grad f ps i)) /\
       length (nth i hs []) = S i /\
       forall j, (j <= i)%nat ->
         tst (flat (nth i ss ([], []))) (flat (nth j ss ([], []))) out (nth j (nth i hs []) dzero) /\
         deq (nth j (nth i hs []) dzero) (val (f_hess f ps i j))).
