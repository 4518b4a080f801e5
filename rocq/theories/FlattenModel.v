(** Construction of function objects: Affine.__init__ and the operators of Func
    (func_base.py), Sum.add and Product.add (func_op.py).  Unlike FuncModel.v,
    which models what the objects compute, this file keeps the objects as trees,
    because these constructors look at the class of their argument. *)
From Verif Require Import Prelude DenseModel FuncModel.
From Coq Require Import Reals.
Open Scope R_scope.

(** param_map, feat_map, dim_map as stored in the FuncWrap atoms.
    Simplification: ints have already been turned into lists and None into the
    empty list (func_op.py:170-179, 230-237). *)
Record maps := mkM { m_pm : list nat; m_fm : list nat; m_dm : list nat }.

(** [ELeaf]: an object of any other class (primitive, Compose, Collapse,
    FuncWrap); [ESum]/[EProduct] carry n_feat, n_dim and the atoms. *)
Inductive fexpr :=
| ELeaf (f : sfun)
| EAffine (base : fexpr) (a b : R)
| ESum (nf nd : nat) (b : R) (atoms : list (R * maps * fexpr))
| EProduct (nf nd : nat) (atoms : list (maps * fexpr)).

(** FuncWrap(foo, param_map, feat_map, n_feat, dim_map, n_dim)
    (func_op.py:191-195, 248-251); feat_flip is never given here. *)
Definition mkw (nf nd : nat) (m : maps) : wmap := mkW (m_pm m) (m_fm m) nf (m_dm m) nd [].

(** What an object computes (FuncModel.v). *)
Fixpoint den (e : fexpr) : sfun :=
  match e with
  | ELeaf f => f
  | EAffine base a b => s_affine (den base) a b
  | ESum nf nd b atoms =>
      s_sum (map (fun '(w, m, e') => (w, s_wrap (mkw nf nd m) (den e'))) atoms) b
  | EProduct nf nd atoms =>
      s_product (map (fun '(m, e') => s_wrap (mkw nf nd m) (den e')) atoms)
  end.

(** Affine.__init__, func_base.py:203-218 *)
Definition mk_affine (base : fexpr) (a b : R) : fexpr :=
  match base with
  | EAffine base' a' b' => EAffine base' (a * a') (a * b' + b)
  | _ => EAffine base a b
  end.

(** func_base.py:165-189 *)
Definition apply_op (e : fexpr) (o : fop) : fexpr :=
  match o with
  | FAdd b => mk_affine e 1 b
  | FRAdd b => mk_affine e 1 b
  | FSub b => mk_affine e 1 (- b)
  | FRSub b => mk_affine e (-1) b
  | FNeg => mk_affine e (-1) 0
  | FMul a => mk_affine e a 0
  | FRMul a => mk_affine e a 0
  end.

(** A Sum or Product under construction: its atoms (and offset). *)
Record sumobj := mkSum { s_nf : nat; s_nd : nat; s_b : R; s_atoms : list (R * maps * fexpr) }.
Record prodobj := mkProd { p_nf : nat; p_nd : nat; p_atoms : list (maps * fexpr) }.
Definition sum_expr (S : sumobj) : fexpr := ESum (s_nf S) (s_nd S) (s_b S) (s_atoms S).
Definition prod_expr (P : prodobj) : fexpr := EProduct (p_nf P) (p_nd P) (p_atoms P).
Definition sum_addb (S : sumobj) (b : R) : sumobj := mkSum (s_nf S) (s_nd S) (s_b S + b) (s_atoms S).

(** Sum.add, func_op.py:153-196.  [atom.param_map(param_map)] picks
    param_map[k] for k in atom.param_map (IndexError out of range).
    Simplification: foo is a different object from self (adding a Sum to itself
    iterates over the list it appends to and does not terminate). *)
Fixpoint sum_add (foo : fexpr) (S : sumobj) (m : maps) (w : R) {struct foo} : res sumobj :=
  match foo with
  | EAffine base a b => sum_add base (sum_addb S b) m (w * a)
  | ESum _ _ b atoms =>
      (fix go (l : list (R * maps * fexpr)) (S : sumobj) : res sumobj :=
         match l with
         | [] => Ok S
         | (wk, mk, e) :: r =>
             let! pm := imap (m_pm mk) (m_pm m) in
             let! fm := imap (m_fm mk) (m_fm m) in
             let! dm := imap (m_dm mk) (m_dm m) in
             let! S' := sum_add e S (mkM pm fm dm) (wk * w) in
             go r S'
         end) atoms (sum_addb S b)
  | _ => Ok (mkSum (s_nf S) (s_nd S) (s_b S) (s_atoms S ++ [(w, m, foo)]))
  end.

(** Product.add, func_op.py:229-253 *)
Fixpoint prod_add (foo : fexpr) (P : prodobj) (m : maps) {struct foo} : res prodobj :=
  match foo with
  | EProduct _ _ atoms =>
      (fix go (l : list (maps * fexpr)) (P : prodobj) : res prodobj :=
         match l with
         | [] => Ok P
         | (mk, e) :: r =>
             let! pm := imap (m_pm mk) (m_pm m) in
             let! fm := imap (m_fm mk) (m_fm m) in
             let! dm := imap (m_dm mk) (m_dm m) in
             let! P' := prod_add e P (mkM pm fm dm) in
             go r P'
         end) atoms P
  | _ => Ok (mkProd (p_nf P) (p_nd P) (p_atoms P ++ [(m, foo)]))
  end.
