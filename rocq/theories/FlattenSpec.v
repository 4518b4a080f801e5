(** Vocabulary for the theorems about constructors. *)
From Verif Require Import Prelude DenseModel FuncModel FuncSpec FuncLemmas FlattenModel.
From Coq Require Import Reals.
Import List ListNotations.
Open Scope R_scope.

(** Arithmetic on numbers, for the operators of Func. *)
Definition op_num (r : R) (o : fop) : R :=
  match o with
  | FAdd b => r + b | FRAdd b => b + r | FSub b => r - b | FRSub b => b - r
  | FNeg => - r | FMul a => r * a | FRMul a => a * r
  end.
(** and on a derivative *)
Definition op_slope (r : R) (o : fop) : R :=
  match o with
  | FAdd _ => r | FRAdd _ => r | FSub _ => r | FRSub _ => - r
  | FNeg => - r | FMul a => r * a | FRMul a => a * r
  end.

(** the shapes of the parameters selected by a param_map *)
Definition sel (ss : list pst) (pm : list nat) : list pst := map (fun k => nth k ss ([], [])) pm.

(** The maps send a function of result shape [o] into [nf] features and [nd]
    dims, taking parameters of shapes [ss]; no parameter is repeated. *)
Definition maps_ok (ss : list pst) (nf nd : nat) (m : maps) (o : pst) : Prop :=
  NoDup (m_pm m) /\ Forall (fun i => i < length ss)%nat (m_pm m) /\ wmap_ok (mkw nf nd m) o.

(** result shape of an atom *)
Definition m_out (nf nd : nat) (m : maps) (o : pst) : pst := w_out (mkw nf nd m) o.

(** A tree of objects that can be called with parameters of shapes [ss] and
    gives values of shape [out]. *)
Fixpoint typed (e : fexpr) (ss : list pst) (out : pst) {struct e} : Prop :=
  match e with
  | ELeaf f => wellformed ss out f /\ hess_both ss out f
  | EAffine base _ _ => typed base ss out
  | ESum nf nd _ atoms => exists os, atoms <> [] /\
      (fix go (l : list (R * maps * fexpr)) (os : list pst) : Prop :=
         match l, os with
         | [], [] => True
         | (_, m, e') :: l', o :: os' => maps_ok ss nf nd m o /\ typed e' (sel ss (m_pm m)) o /\ go l' os'
         | _, _ => False
         end) atoms os /\
      broadcastable (map (fun '((_, m, _), o) => m_out nf nd m o) (combine atoms os)) /\
      out = join (map (fun '((_, m, _), o) => m_out nf nd m o) (combine atoms os))
  | EProduct nf nd atoms => exists os, atoms <> [] /\
      (fix go (l : list (maps * fexpr)) (os : list pst) : Prop :=
         match l, os with
         | [], [] => True
         | (m, e') :: l', o :: os' => maps_ok ss nf nd m o /\ typed e' (sel ss (m_pm m)) o /\ go l' os'
         | _, _ => False
         end) atoms os /\
      broadcastable (map (fun '((m, _), o) => m_out nf nd m o) (combine atoms os)) /\
      out = join (map (fun '((m, _), o) => m_out nf nd m o) (combine atoms os))
  end.

(** The amount by which [Sum.add(foo, weight=w)] misses w * foo: every offset
    met on the way down is added with weight 1 instead of its own weight. *)
Fixpoint drift (w : R) (foo : fexpr) {struct foo} : R :=
  match foo with
  | EAffine base a b => (1 - w) * b + drift (w * a) base
  | ESum _ _ b atoms =>
      (1 - w) * b +
      (fix go (l : list (R * maps * fexpr)) : R :=
         match l with [] => 0 | (wk, _, e) :: r => drift (wk * w) e + go r end) atoms
  | _ => 0
  end.

(** no offset anywhere on the flattened path *)
Fixpoint no_offset (foo : fexpr) : Prop :=
  match foo with
  | EAffine base a b => b = 0 /\ no_offset base
  | ESum _ _ b atoms => b = 0 /\
      (fix go (l : list (R * maps * fexpr)) : Prop :=
         match l with [] => True | (_, _, e) :: r => no_offset e /\ go r end) atoms
  | _ => True
  end.
(** all weights on the flattened path are 1 *)
Fixpoint unit_weights (foo : fexpr) : Prop :=
  match foo with
  | EAffine base a b => a = 1 /\ unit_weights base
  | ESum _ _ b atoms =>
      (fix go (l : list (R * maps * fexpr)) : Prop :=
         match l with [] => True | (w, _, e) :: r => w = 1 /\ unit_weights e /\ go r end) atoms
  | _ => True
  end.

(** Reading a method's result entry by entry. *)
Definition value (e : fexpr) (ps : list dt) (n d : idx) : R := get (val (f_call (den e) ps)) [] [] n d.
Definition gradient (e : fexpr) (ps : list dt) (i : nat) (x n d : idx) : R :=
  get (val (f_grad (den e) ps i)) x [] n d.
Definition hessian (e : fexpr) (ps : list dt) (i j : nat) (x y n d : idx) : R :=
  get (val (f_hess (den e) ps i j)) x y n d.
(** The method calls succeed. *)
Definition callable (e : fexpr) (ss : list pst) : Prop :=
  forall ps, has_sts ps ss ->
    (exists v, f_call (den e) ps = Ok v) /\
    (forall i, (i < length ss)%nat -> exists g, f_grad (den e) ps i = Ok g) /\
    (forall i j, (i < length ss)%nat -> (j < length ss)%nat -> exists h, f_hess (den e) ps i j = Ok h).
