(** The function objects with their [eval] methods: which expressions are
    considered, and what eval should return.  The specification used in Props_ET.v. *)
From Verif Require Import Prelude DenseModel AnalyticSpec NDArray NDProofs TensorModel TensorSpec FuncModel FuncSpec FTModel FTSpec FTPrim FTRep FTRefine FTWrap FTBuilt LTModel ETModel.
From Verif Require FuncLemmas.
From Coq Require Import Reals Sorted.
Import List ListNotations.
Open Scope R_scope.
Section ex.
Context {ex : exdims}.

(** as [outer] (FTBuilt.v), for objects with eval *)
Inductive eouter : pst -> list nat -> (list pval -> Prop) -> tobj -> Prop :=
| eo_Exp sh : posl sh -> eouter (sh, []) [] anyP o_Exp
| eo_Log sh : posl sh -> eouter (sh, []) [] (posP (sh, [])) o_Log
| eo_Logistic sh : posl sh -> eouter (sh, []) [] anyP o_Logistic
| eo_ArcTan sh : posl sh -> eouter (sh, []) [] anyP o_ArcTan
| eo_Poisson size s : posl (flat s) -> (1 <= size)%nat -> eouter s (size :: nil) anyP (o_Poisson size)
| eo_LogNegativeBinomial gammaln size r s : posl (flat s) -> (1 <= size)%nat -> 0 < r ->
    eouter s (size :: nil) (posP s) (o_LogNegativeBinomial gammaln size r)
| eo_affine s E D o a b : a <> 0 -> eouter s E D o -> eouter s E D (o_affine o a b)
| eo_comp s E D1 D2 f1 f2 : flat s <> [] -> eouter (flat s, []) E D1 f1 -> eouter s [] D2 f2 ->
    eouter s E (fun ps => (forall v, t_call (o_f f2) ps = Ok v -> D1 (v :: nil)) /\ D2 ps) (o_compose f1 (f2 :: nil))
| eo_keep s E D o : flat s <> [] -> eouter s E D o -> eouter s E D (o_compose o_Exp (o :: nil)).

(** an atom of a Sum *)
Record eatom := mkEAtom { ea_w : R; ea_x : tobj; ea_o : pst; ea_mf : list nat; ea_dep : nat -> bool; ea_col : bool }.
(** as [tbuilt]; a Sum must have no offset, because Sum.eval leaves it out *)
Inductive ebuilt : list pst -> pst -> (list pval -> Prop) -> list nat -> (nat -> bool) -> bool -> tobj -> Prop :=
| eb_X sh : posl sh -> ebuilt ((sh, []) :: nil) (sh, []) anyP (seq 0 (length sh)) (fun _ => true) false o_X
| eb_Scalar : ebuilt (([], []) :: nil) ([], []) anyP [] (fun _ => true) false o_Scalar
| eb_Vector a : posl (shp a) -> ebuilt (([], []) :: nil) (shp a, []) anyP [] (fun _ => nonempty (shp a)) false (o_Vector a)
| eb_Constant ss a : posl (shp a) -> ebuilt ss (shp a, []) anyP [] (fun _ => false) false (o_Constant a)
| eb_outer s E D o : eouter s E D o -> ebuilt (s :: nil) (flat s, E) D (seq 0 (length (flat s))) (fun _ => nonempty (flat s ++ E)) false o
| eb_domain ss out (D D' : list pval -> Prop) mf dep col o : (forall ps, D' ps -> D ps) -> ebuilt ss out D mf dep col o -> ebuilt ss out D' mf dep col o
| eb_affine ss out D mf dep col o a b : a <> 0 -> b = 0 \/ col = false -> ebuilt ss out D mf dep col o ->
    ebuilt ss out D mf dep col (o_affine o a b)
| eb_wrap ss o D mf dep col w x : NoDup (w_pm w) -> Forall (fun i => i < length ss)%nat (w_pm w) -> FuncLemmas.wmap_ok w o ->
    StronglySorted lt (w_pm w) \/ t_nullh (o_f x) = true -> flip_fine w ss o mf dep col (t_nullh (o_f x)) ->
    ebuilt (map (fun k => nth k ss ([], [])) (w_pm w)) o D mf dep col x ->
    ebuilt ss (FuncLemmas.w_out w o) (fun ps => D (map (fun k => nth k ps (PNum 0)) (w_pm w))) (wmf w mf) (wdep w dep) (colw col o) (o_wrap w x)
| eb_sum ss D (ats : list eatom) : Forall (fun s => posl (flat s)) ss -> ats <> [] -> Forall (fun a => ea_w a <> 0) ats ->
    broadcastable (map ea_o ats) -> flat (join (map ea_o ats)) <> [] ->
    Forall (fun a => DR (snd (ea_o a)) (snd (join (map ea_o ats)))) ats ->
    Forall (fun a => forall f, In f (ea_mf a) -> nth f (fst (ea_o a)) 1%nat = nth f (fst (join (map ea_o ats))) 1%nat) ats ->
    (forall a, In a ats -> ebuilt ss (ea_o a) D (ea_mf a) (ea_dep a) (ea_col a) (ea_x a)) ->
    ebuilt ss (join (map ea_o ats)) D (flat_map ea_mf ats) (fun i => existsb (fun a => ea_dep a i) ats) (forallb ea_col ats)
      (o_sum (map (fun a => (ea_w a, ea_x a)) ats) 0)
| eb_compose ss o E Df Dg mf dep f g : Forall (fun s => posl (flat s)) ss -> flat o <> [] ->
    (forall i, (i < length ss)%nat -> dep i = true) ->
    eouter o E Df f -> ebuilt ss o Dg mf dep false g ->
    ebuilt ss (flat o, E) (fun ps => (forall v, t_call (o_f g) ps = Ok v -> Df (v :: nil)) /\ Dg ps) mf (fun _ => true) false (o_compose f (g :: nil)).
End ex.

(** [a] and [b] have the same entries at (x, y, n, d) *)
Definition same_at (a b : pval) (x y n d : idx) : Prop := get (vden a) x y n d = get (vden b) x y n d.
(** eval returns; its first result is the value, its second lists the gradients,
    its third the lower triangle of the Hessian, row by row: entry by entry what
    __call__, grad and hess return *)
Definition eval_agrees (ss : list pst) (out : pst) (o : tobj) (ps : list pval) : Prop :=
  exists v gs hs v', o_eval o ps = Ok (v, gs, hs) /\ t_call (o_f o) ps = Ok v' /\
    (forall n d, In n (indices (fst out)) -> In d (indices (snd out)) -> same_at v v' [] [] n d) /\
    length gs = length ss /\
    (forall i, (i < length ss)%nat -> exists g, t_grad (o_f o) ps i = Ok g /\
       forall x n d, In x (indices (flat (nth i ss ([], [])))) -> In n (indices (fst out)) -> In d (indices (snd out)) ->
         same_at (nth i gs (PNum 0)) g x [] n d) /\
    length hs = length ss /\
    (forall i, (i < length ss)%nat -> length (nth i hs []) = S i) /\
    (forall i j, (i < length ss)%nat -> (j <= i)%nat -> exists h, t_hess (o_f o) ps i j = Ok h /\
       forall x y n d, In x (indices (flat (nth i ss ([], [])))) -> In y (indices (flat (nth j ss ([], [])))) ->
         In n (indices (fst out)) -> In d (indices (snd out)) -> same_at (nth j (nth i hs []) (PNum 0)) h x y n d).
