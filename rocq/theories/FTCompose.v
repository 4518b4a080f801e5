(** Compose at the tensor level refines the dense one: one inner function, an
    outer function whose derivatives are diagonal. *)
From Verif Require Import Prelude DenseModel AnalyticSpec DenseProofs NDArray NDProofs TensorModel TensorSpec TensorSpecOps TensorLemmas TensorBasic TensorSum TensorSumMain TensorBin TensorArith TensorShape TensorExpand TensorGeneric TensorGSum TensorDotCore TensorDot TensorUfunc TensorUfuncP FuncModel FuncSpec FTModel FTRep FTRep2 FTRep3 FTVal FTDiag FTRefine FTPrim FTAffine.
From Verif Require FuncPrim FuncCompose FuncWrapP FuncLemmas FuncAffine FuncSum.
From Coq Require Import Reals Lra.
Import List ListNotations.
Open Scope R_scope.
Section ex.
Context {ex : exdims}.

Section Comp.
Context (ss : list pst) (o : pst) (E : list nat) (Df Dg : list dt -> Prop) (mf : list nat) (dep : nat -> bool) (tf tg : tfun) (sf sg : sfun).
Hypothesis Pss : Forall (fun s => posl (flat s)) ss.
Hypothesis NK : flat o <> [].
Hypothesis Wf : wellformed (o :: nil) (flat o, E) sf.
Hypothesis Wg : wellformed ss o sg.
Hypothesis F : dform o E Df tf sf.
Hypothesis Rg : refines ss o Dg mf dep false tg sg.
Hypothesis Dep : forall i, (i < length ss)%nat -> dep i = true.
Notation K := (flat o).

Lemma comp_arg ps qs : prms ss ps qs -> Dg qs -> exists v, rmapM (fun g => t_call g ps) [tg] = Ok [v] /\ prms (o :: nil) [v] [val (f_call sg qs)].
Proof.
  intros Pp d. destruct (rf_call _ _ _ _ _ _ _ _ Rg ps qs Pp d) as (v & Ev & [(? & _)|(t & -> & Pt)]); [discriminate|]. exists (PT t). cbn [rmapM]. rewrite Ev. split; [reflexivity|].
  split; [reflexivity|]. split; [constructor; [exact (FuncAffine.call_st Wg qs (proj1 (proj2 Pp)))|constructor]|]. intros [|i] Hi; [exact Pt|cbn in Hi; lia].
Qed.
Lemma WgF : Forall2 (fun g o => wellformed ss o g) (sg :: nil) (o :: nil).
Proof. constructor; [exact Wg|constructor]. Qed.
Lemma comp_dg ps qs i : prms ss ps qs -> Dg qs -> (i < length ss)%nat -> exists v, (let! d := t_grad tg ps i in pdrop d) = Ok v /\
  rep true (Qm mf) (SH (flat (nth i ss ([], []))) [] K []) v (dropT (length (fst o)) (get (val (f_grad sg qs i)))).
Proof.
  intros Pp d Hi. destruct (rf_grad _ _ _ _ _ _ _ _ Rg ps qs i Pp d Hi) as (v & Ev & V). rewrite Ev. cbn [rbind]. rewrite (Dep i Hi) in V. exact (rdrop true (Qm mf) _ v _ V).
Qed.
Lemma comp_hg ps qs i j : prms ss ps qs -> Dg qs -> (i < length ss)%nat -> (j <= i)%nat -> exists v u, t_hess tg ps i j = Ok v /\ pdrop v = Ok u /\
  rep false (Qm mf) (SH (flat (nth i ss ([], []))) (flat (nth j ss ([], []))) K []) u (dropT (length (fst o)) (get (val (f_hess sg qs i j)))).
Proof.
  intros Pp d Hi Hj. destruct (rf_hess _ _ _ _ _ _ _ _ Rg ps qs i j Pp d Hi Hj) as (v & Ev & V). destruct (rdrop false (Qm mf) _ v _ V) as (u & Eu & U). exists v, u. auto.
Qed.
Theorem compose_refines : refines ss (K, E) (fun ps => Df [val (f_call sg ps)] /\ Dg ps) mf (fun _ => true) false (t_compose tf [tg]) (s_compose sf [sg]).
Proof.
  destruct (df_ng _ _ _ _ _ F) as [N1 N2]. destruct (df_nh _ _ _ _ _ F) as [N3 N4]. pose proof (df_ps _ _ _ _ _ F) as PK. pose proof (df_pe _ _ _ _ _ F) as PE.
  constructor.
  - intros ps qs Pp [d1 d2]. destruct (comp_arg ps qs Pp d2) as (v & Ev & Pv). cbn [t_compose t_call]. unfold tcompose_call. rewrite Ev. cbn [rbind].
    rewrite (FuncCompose.compose_call_ok ss (o :: nil) (K, E) sf [sg] Wf WgF qs (proj1 (proj2 Pp))). cbn [val FuncCompose.gvs map].
    destruct (df_call _ _ _ _ _ F [v] [val (f_call sg qs)] Pv d1) as (t & Et & Pt). exists (PT t). split; [exact Et|]. right. exists t. auto.
  - intros ps qs i Pp [d1 d2] Hi. destruct (comp_arg ps qs Pp d2) as (v & Ev & Pv). cbn [t_compose t_grad]. rewrite N1. unfold tcompose_grad. rewrite Ev. cbn [rbind enum length seq combine rmapM].
    destruct (df_grad _ _ _ _ _ F [v] [val (f_call sg qs)] Pv d1) as (s & Es & Xs & Mx & My & Vs). rewrite Es. cbn [rbind].
    destruct (rf_grad _ _ _ _ _ _ _ _ Rg ps qs i Pp d2 Hi) as (u & Eu & U). rewrite Eu. cbn [rbind].
    destruct (comp_dg ps qs i Pp d2 Hi) as (dg & Edg & Rdg). rewrite Eu in Edg. cbn [rbind] in Edg. rewrite Edg. cbn [rbind].
    assert (HQ : forall a b c : list (option nat), c = [] -> Qm mf a b -> Qm mf a c) by (intros a b c -> q f [Hf|[]]; apply q; now left).
    destruct (rdotl_T (fun _ c => c = []) (Qm mf) (Qm mf) (flat (nth i ss ([], []))) [] K E s dg _ PK NK HQ (conj Xs My) Mx Rdg) as (w & Ew & Rw).
    rewrite Ew. cbn [rbind]. unfold pysum. cbn [ofold]. rewrite (radd0_l _ _ _ _ _ Rw). cbn [rbind]. exists w. split; [reflexivity|]. unfold gsh. cbn [fst snd].
    destruct (FuncCompose.compose_grad_ok ss (o :: nil) (K, E) sf [sg] Wf WgF qs i (proj1 (proj2 Pp)) Hi) as (g & Eg & _ & Vg). rewrite Eg. cbn [val].
    eapply rep_ext; [exact Rw|]. intros x y n e (I1 & I2 & I3 & I4). cbn [SX SY SN SD] in *. destruct I2 as [<-|[]]. rewrite Vg. unfold FuncCompose.CG. cbn [length seq]. rewrite Rsum_cons, Rsum_nil, Rplus_0_r.
    unfold dlT. apply Rsum_ext. intros k Hk. f_equal. cbn [nth FuncCompose.df FuncCompose.gvs map]. apply Vs. repeat split; cbn; auto.
  - intros ps qs i j Pp [d1 d2] Hi Hj. destruct (comp_arg ps qs Pp d2) as (v & Ev & Pv). cbn [t_compose t_hess]. rewrite N1, N3. unfold tcompose_hess. rewrite Ev. cbn [rbind rmapM].
    assert (Hj' : (j < length ss)%nat) by lia.
    destruct (comp_dg ps qs i Pp d2 Hi) as (di & Edi & Rdi). rewrite Edi. cbn [rbind]. destruct (comp_dg ps qs j Pp d2 Hj') as (dj & Edj & Rdj).
    match goal with |- context[if Nat.eqb i j then ?A else ?B] => assert (E1 : (if Nat.eqb i j then A else B) = Ok [dj]) end.
    { destruct (Nat.eqb_spec i j) as [->|]; [rewrite Edi in Edj; injection Edj as <-; reflexivity|]. cbn [rmapM]. rewrite Edj. reflexivity. }
    rewrite E1. cbn [rbind enum length seq combine ofold]. cbn [Nat.ltb Nat.leb].
    destruct (df_hess _ _ _ _ _ F [v] [val (f_call sg qs)] Pv d1) as (h & Eh & Xh & Mxh & Myh & Vh). rewrite Eh. cbn [rbind]. unfold rnth. cbn [nth_error rbind].
    assert (Pi : posl (flat (nth i ss ([], [])))) by (exact (proj1 (Forall_forall _ _) Pss _ (nth_In _ _ Hi))).
    assert (Pj : posl (flat (nth j ss ([], [])))) by (exact (proj1 (Forall_forall _ _) Pss _ (nth_In _ _ Hj'))).
    assert (Rh : rep true (fun a b => a = idm (length K) /\ b = idm (length K)) (SH K K K E) (PT h) (get (val (f_hess sf [val (f_call sg qs)] 0 0)))).
    { right. split; [|exact Vh]. split; [split; [exact Xh|split; assumption]|]. apply rank_not_zero. apply (xfits_rank _ h Xh). now apply nonsc. }
    destruct (rquad (Qm mf) (Qm mf) _ _ K E (PT h) di dj _ _ _ PK NK Pi Pj PE Rh Rdi Rdj) as (q & Eq & Rq). rewrite Eq. cbn [rbind].
    assert (SP : spos (SH (flat (nth i ss ([], []))) (flat (nth j ss ([], []))) K E)) by (repeat split; assumption).
    assert (NS : nonscalar (SH (flat (nth i ss ([], []))) (flat (nth j ss ([], []))) K E)) by (now apply nonsc).
    apply (rep_weaken true _ (Qm mf)) in Rq; [|intros a b [(a' & Ha) (b' & Hb)] f [Hf|Hf]; [apply Ha|apply Hb]; now left].
    destruct (radd false true (Qm mf) _ tzero q _ _ SP NS (rep_tzero _ _ (fun _ _ _ _ => 0) (fun x y n d _ => eq_refl)) Rq) as (q1 & Eq1 & Rq1). rewrite Eq1. cbn [rbind orb] in *.
    destruct (df_grad _ _ _ _ _ F [v] [val (f_call sg qs)] Pv d1) as (s & Es & Xs & Mx & My & Vs). rewrite Es. cbn [rbind].
    destruct (comp_hg ps qs i j Pp d2 Hi Hj) as (hg & hd & Ehg & Ehd & Rhd). rewrite Ehg. cbn [rbind]. rewrite Ehd. cbn [rbind].
    destruct (rdot_right false (Qm mf) _ _ K E s hd _ PK NK Xs Mx Rhd) as (r & Er & Rr). rewrite Er. cbn [rbind].
    destruct (radd_or0 true false (Qm mf) _ q1 r _ _ SP NS Rq1 Rr) as (w & Ew & Rw). rewrite Ew. cbn [rbind]. exists w. split; [reflexivity|]. unfold hsh. cbn [fst snd].
    destruct (FuncCompose.compose_hess_ok ss (o :: nil) (K, E) sf [sg] Wf WgF qs i j (proj1 (proj2 Pp)) Hi Hj) as (g & Eg & _ & Vg). rewrite Eg. cbn [val].
    eapply rep_false. eapply rep_ext; [exact Rw|]. intros x y n e (I1 & I2 & I3 & I4). cbn [SX SY SN SD] in *. rewrite Vg. unfold FuncCompose.CH. cbn [length seq]. rewrite !Rsum_cons, !Rsum_nil, !Rplus_0_r, Rplus_0_l.
    match goal with |- ?a + ?b = ?c + ?d => cut (a = c); [intros ->; cut (b = d); [intros ->; reflexivity|]|reflexivity] end.
    unfold drT. apply Rsum_ext. intros N HN. cbn [nth FuncCompose.df FuncCompose.gvs map]. f_equal.
    + unfold dropT, hess_at. destruct (Nat.leb_spec j i); [reflexivity|lia].
    + unfold FuncCompose.df, FuncCompose.gvs. cbn [map]. apply Vs. repeat split; cbn; auto.
  - cbn [t_compose t_nullg s_compose f_nullg]. congruence.
  - cbn [t_compose t_nullh s_compose f_nullh]. congruence.
  - discriminate.
  - apply Forall_app. split; assumption.
  - intros f Hf. cbn [fst]. pose proof (rf_mf _ _ _ _ _ _ _ _ Rg f Hf) as H. unfold flat. rewrite app_length. lia.
  - cbn [t_compose t_nullg]. congruence.
Qed.
End Comp.
End ex.
