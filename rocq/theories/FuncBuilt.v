(** Every function built from the primitives with the combinators has right
    derivatives and a consistent eval. *)
From Verif Require Import Prelude DenseModel FuncModel AnalyticSpec FuncSpec DenseProofs FuncLemmas FuncAffine FuncSum FuncWrapP FuncCompose FuncProduct FuncPrim FuncCollapse.
From Coquelicot Require Import Coquelicot.
From Coq Require Import Reals Lra Sorted.
Import List ListNotations.
Open Scope R_scope.

(** [built ss out D f]: [f] is an expression over the primitives that can be
    called with parameters of shapes [ss] in the domain [D] and gives values of
    shape [out].  All param_maps are strictly ascending (or the wrapped function
    is linear) and all Sums have offset 0 (an offset can still be added with
    [+], outside the Sum). *)
Inductive built : list pst -> pst -> (list dt -> Prop) -> sfun -> Prop :=
| b_X sh : built ((sh, []) :: nil) (sh, []) everywhere s_X
| b_Exp s : built (s :: nil) s everywhere s_Exp
| b_Log s : built (s :: nil) s (FuncPrim.positive s) s_Log
| b_Logistic sh : built ((sh, []) :: nil) (sh, []) everywhere s_Logistic
| b_ArcTan sh : built ((sh, []) :: nil) (sh, []) everywhere s_ArcTan
| b_Scalar : built (([], []) :: nil) ([], []) everywhere s_Scalar
| b_Vector sh V : built (([], []) :: nil) (sh, []) everywhere (s_Vector sh V)
| b_Constant ss sh V : built ss (sh, []) everywhere (s_Constant sh V)
| b_Quadratic ss u s : s <> 0 -> built ss ([], []) everywhere (s_Quadratic u s)
| b_Poisson size s : built (s :: nil) (flat s, size :: nil) everywhere (s_Poisson size)
| b_LogNegativeBinomial gammaln size r s : 0 < r ->
    built (s :: nil) (flat s, size :: nil) (FuncPrim.positive s) (s_LogNegativeBinomial gammaln size r)
| b_domain ss out (D D' : list dt -> Prop) f : (forall ps, D' ps -> D ps) -> built ss out D f -> built ss out D' f
| b_affine ss out D f a b : built ss out D f -> built ss out D (s_affine f a b)
| b_wrap ss o w D f : NoDup (w_pm w) -> Forall (fun i => i < length ss)%nat (w_pm w) -> wmap_ok w o ->
    StronglySorted lt (w_pm w) \/ f_nullh f = true ->
    built (map (fun i => nth i ss ([], [])) (w_pm w)) o D f ->
    built ss (w_out w o) (fun ps => D (map (fun i => nth i ps dzero) (w_pm w))) (s_wrap w f)
| b_sum ss (atoms : list (R * sfun)) os D : length atoms = length os -> broadcastable os ->
    (forall k, (k < length os)%nat -> built ss (nth k os ([], [])) D (snd (nth k atoms (0, fnull)))) ->
    built ss (join os) D (s_sum atoms 0)
| b_product ss (atoms : list sfun) os D : length atoms = length os -> broadcastable os -> atoms <> [] ->
    (forall k, (k < length os)%nat -> built ss (nth k os ([], [])) D (nth k atoms fnull)) ->
    built ss (join os) D (s_product atoms)
| b_compose ss os out Df Dg f (gs : list sfun) : gs <> [] -> length gs = length os ->
    built os out Df f ->
    (forall k, (k < length os)%nat -> built ss (nth k os ([], [])) Dg (nth k gs fnull)) ->
    built ss out (fun ps => Df (map (fun g => val (f_call g ps)) gs) /\ Dg ps) (s_compose f gs).

Lemma Forall2_nth_intro {A B} (P : A -> B -> Prop) l l' a b : length l = length l' ->
  (forall k, (k < length l')%nat -> P (nth k l a) (nth k l' b)) -> Forall2 P l l'.
Proof.
  revert l'; induction l as [|x l IH]; intros [|y l'] E H; try discriminate; constructor.
  - apply (H 0%nat); cbn; lia.
  - apply IH; [now injection E|]. intros k Hk. apply (H (S k)); cbn; lia.
Qed.

Theorem built_ok ss out D f : built ss out D f -> correct ss out D f /\ hess_both ss out f /\ eval_agrees ss out f.
Proof.
  induction 1 as [sh|s|s|sh|sh| |sh V|ss sh V|ss u s Hs|size s|gl size r s Hr
    |ss out D D' f HD _ (C & B & E)|ss out D f a b _ (C & B & E)
    |ss o w D f Hn Hb Hw Ho _ (C & B & E)|ss atoms os D Hl Hbc _ IH|ss atoms os D Hl Hbc Hne _ IH
    |ss os out Df Dg f gs Hne Hl _ (C & B & E) _ IH].
  - pose proof (X_correct sh) as C. split; [exact C|]. split; [apply both_1|]. apply prim_eval, C.
  - pose proof (Exp_correct s) as C. split; [exact C|]. split; [apply both_1|]. apply prim_eval, C.
  - pose proof (Log_correct s) as C. split; [exact C|]. split; [apply both_1|]. apply prim_eval, C.
  - pose proof (Logistic_correct sh) as C. split; [exact C|]. split; [apply both_1|]. apply prim_eval, C.
  - pose proof (ArcTan_correct sh) as C. split; [exact C|]. split; [apply both_1|]. apply prim_eval, C.
  - pose proof Scalar_correct as C. split; [exact C|]. split; [apply both_1|]. apply prim_eval, C.
  - pose proof (Vector_correct sh V) as C. split; [exact C|]. split; [apply both_1|]. apply prim_eval, C.
  - pose proof (Constant_correct ss sh V) as C. split; [exact C|]. split; [apply Constant_both|]. apply prim_eval, C.
  - pose proof (Quadratic_correct u s ss Hs) as C. split; [exact C|]. split; [now apply Quadratic_both|]. apply prim_eval, C.
  - pose proof (Poisson_correct size s) as C. split; [exact C|]. split; [apply both_1|]. apply prim_eval, C.
  - pose proof (LNB_correct gl size r s Hr) as C. split; [exact C|]. split; [apply both_1|]. apply prim_eval, C.
  - split; [eapply correct_weaken; eauto|auto].
  - split; [now apply affine_correct|]. pose proof (c_wf _ _ _ _ C). split; [now apply affine_both|now apply affine_eval].
  - pose proof (c_wf _ _ _ _ C) as W. assert (OO : order_ok ss o w f) by (right; exact B).
    split; [now apply wrap_correct|]. split; [now apply wrap_both|now apply wrap_eval_agrees].
  - assert (C : Forall2 (fun p o => correct ss o D (snd p)) atoms os).
    { apply (Forall2_nth_intro _ _ _ (0, fnull) ([], [])); auto. intros k Hk. apply (IH k Hk). }
    assert (W : Forall2 (fun p o => wellformed ss o (snd p)) atoms os).
    { eapply Forall2_impl_in; [exact C|]. intros p o _ _ Cp. apply Cp. }
    split; [now apply sum_correct|]. split.
    + apply sum_both; auto. apply Forall_forall. intros p Hp. apply (In_nth _ _ (0, fnull)) in Hp as (k & Hk & <-).
      exists (nth k os ([], [])). split; [apply nth_In; lia|]. apply IH; lia.
    + apply sum_eval; auto. apply (Forall2_nth_intro _ _ _ (0, fnull) ([], [])); auto. intros k Hk. apply (IH k Hk).
  - assert (W : Forall2 (fun a o => wellformed ss o a) atoms os).
    { apply (Forall2_nth_intro _ _ _ fnull ([], [])); auto. intros k Hk. apply (IH k Hk). }
    split; [|split].
    + apply product_correct; auto. intros k Hk. apply IH; lia.
    + apply product_both; auto. * intros k Hk. apply IH; lia. * intros k Hk. apply IH; lia.
    + apply product_eval_agrees; auto. intros k Hk. apply IH; lia.
  - assert (W : Forall2 (fun a o => wellformed ss o a) gs os).
    { apply (Forall2_nth_intro _ _ _ fnull ([], [])); auto. intros k Hk. apply (IH k Hk). }
    pose proof (c_wf _ _ _ _ C) as Wf.
    split; [|split].
    + apply (compose_correct ss os out f gs Wf W Df Dg); auto. intros k Hk. apply IH; lia.
    + apply (compose_both ss os); auto.
      * apply C. * intros k Hk. apply IH; lia. * intros k Hk. apply IH; lia.
    + apply (compose_eval_agrees ss os); auto. intros k Hk. apply IH; lia.
Qed.

(** NegativeBinomial *)
Lemma NB_built gammaln size r s : 0 < r ->
  built (s :: nil) (flat s, size :: nil) (FuncPrim.positive s) (s_NegativeBinomial gammaln size r).
Proof.
  intros Hr. apply (b_domain _ _ (fun ps => everywhere (map (fun g => val (f_call g ps)) (s_LogNegativeBinomial gammaln size r :: nil)) /\ FuncPrim.positive s ps)).
  - intros ps H. split; [exact I|exact H].
  - apply (b_compose (s :: nil) ((flat s, size :: nil) :: nil)); [discriminate|reflexivity|apply b_Exp|].
    intros [|k] Hk; [|cbn in Hk; lia]. cbn [nth]. now apply b_LogNegativeBinomial.
Qed.
