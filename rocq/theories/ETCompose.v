(** Compose.eval agrees with the dense function: one inner function, an outer
    function whose derivatives are diagonal. *)
From Verif Require Import Prelude DenseModel AnalyticSpec DenseProofs NDArray NDProofs TensorModel TensorSpec TensorSpecOps TensorLemmas TensorBasic TensorSum TensorSumMain TensorBin TensorArith TensorShape TensorExpand TensorGeneric TensorGSum TensorDotCore TensorDot TensorUfunc TensorUfuncP FuncModel FuncSpec FTModel FTRep FTRep2 FTRep3 FTVal FTDiag FTRefine FTPrim FTAffine FTWrap FTSum FTCompose LTModel ETModel ETRefine.
From Verif Require FuncPrim FuncCompose FuncWrapP FuncLemmas FuncAffine FuncSum.
From Coq Require Import Reals Lra.
Import List ListNotations.
Open Scope R_scope.
Section ex.
Context {ex : exdims}.
Section Comp.
Context (ss : list pst) (o : pst) (E : list nat) (Df Dg : list dt -> Prop) (mf : list nat) (dep : nat -> bool) (tf tg : tobj) (sf sg : sfun).
Hypothesis Pss : Forall (fun s => posl (flat s)) ss.
Hypothesis NK : flat o <> [].
Hypothesis Wf : wellformed (o :: nil) (flat o, E) sf.
Hypothesis Wg : wellformed ss o sg.
Hypothesis F : dform o E Df (o_f tf) sf.
Hypothesis EF : eform o E Df tf sf.
Hypothesis EG : eok ss o Dg mf dep false tg sg.
Hypothesis Dep : forall i, (i < length ss)%nat -> dep i = true.
Notation K := (flat o).

Section At.
Context (ps : list pval) (qs : list dt) (v : pval) (gg : list pval) (gh : list (list pval)) (g h : tensor).
Hypothesis Pp : prms ss ps qs.
Hypothesis Rg : eres ss o mf dep false sg qs (v, gg, gh).
Hypothesis Gd : xfits (SH K [] K E) g /\ xm g = idm (length K) /\ ym g = [] /\ tabeq (SH K [] K E) (get (den g)) (get (val (f_grad sf [val (f_call sg qs)] 0))).
Hypothesis Hd : xfits (SH K K K E) h /\ xm h = idm (length K) /\ ym h = idm (length K) /\ tabeq (SH K K K E) (get (den h)) (get (val (f_hess sf [val (f_call sg qs)] 0 0))).
Notation Hs := (proj1 (proj2 Pp)).

Definition dropped (gd : list pval) : Prop := length gd = length ss /\
  forall i, (i < length ss)%nat -> rep true (Qm mf) (SH (flat (nth i ss ([], []))) [] K []) (nth i gd tzero) (dropT (length (fst o)) (get (val (f_grad sg qs i)))).
Lemma ce_drop : exists gd, rmapM pdrop gg = Ok gd /\ dropped gd.
Proof.
  destruct Rg as (_ & Lg & _ & G & _).
  assert (X : forall i, (i < length ss)%nat -> exists u, pdrop (nth i gg tzero) = Ok u /\ rep true (Qm mf) (SH (flat (nth i ss ([], []))) [] K []) u (dropT (length (fst o)) (get (val (f_grad sg qs i))))).
  { intros i Hi. specialize (G i Hi). rewrite (Dep i Hi) in G. exact (rdrop true (Qm mf) _ _ _ G). }
  destruct (rmapM_list pdrop tzero tzero gg) as (gd & Ed & Ld & Vd); [intros i Hi; rewrite Lg in Hi; destruct (X i Hi) as (u & Eu & _); eauto|].
  exists gd. split; [exact Ed|]. split; [congruence|]. intros i Hi. destruct (X i Hi) as (u & Eu & U). rewrite (Vd i ltac:(lia)) in Eu. injection Eu as ->. exact U.
Qed.
Lemma ce_grad gd i : dropped gd -> (i < length ss)%nat -> exists u, ceval_grad [PT g] [gd] i = Ok u /\
  rep true (Qm mf) (gsh (nth i ss ([], [])) (K, E)) u (get (val (f_grad (s_compose sf [sg]) qs i))).
Proof.
  intros [Ld Vd] Hi. pose proof (df_ps _ _ _ _ _ F) as PK. destruct Gd as (Xs & Mx & My & Vs). unfold ceval_grad. cbn [enum length seq combine rmapM]. unfold rnth at 1. cbn [nth_error rbind].
  rewrite (rnth_nth gd i tzero) by lia. cbn [rbind].
  assert (HQ : forall a b c : list (option nat), c = [] -> Qm mf a b -> Qm mf a c) by (intros a b c -> q f [Hf|[]]; apply q; now left).
  destruct (rdotl_T (fun _ c => c = []) (Qm mf) (Qm mf) (flat (nth i ss ([], []))) [] K E g (nth i gd tzero) _ PK NK HQ (conj Xs My) Mx (Vd i Hi)) as (w & Ew & Rw).
  rewrite Ew. cbn [rbind]. unfold pysum. cbn [ofold]. rewrite (radd0_l _ _ _ _ _ Rw). cbn [rbind]. exists w. split; [reflexivity|]. unfold gsh. cbn [fst snd].
  destruct (FuncCompose.compose_grad_ok ss (o :: nil) (K, E) sf [sg] Wf (WgF ss o sg Wg) qs i Hs Hi) as (g' & Eg & _ & Vg). rewrite Eg. cbn [val].
  eapply rep_ext; [exact Rw|]. intros x y n e (I1 & I2 & I3 & I4). cbn [SX SY SN SD] in *. destruct I2 as [<-|[]]. rewrite Vg. unfold FuncCompose.CG. cbn [length seq]. rewrite Rsum_cons, Rsum_nil, Rplus_0_r.
  unfold dlT. apply Rsum_ext. intros k Hk. f_equal. cbn [nth FuncCompose.df FuncCompose.gvs map]. apply Vs. repeat split; cbn; auto.
Qed.
Lemma ce_hess gd i j : dropped gd -> (i < length ss)%nat -> (j <= i)%nat -> exists u, ceval_hess [PT g] [[PT h]] [gd] [gh] i j = Ok u /\
  rep false (Qm mf) (hsh (nth i ss ([], [])) (nth j ss ([], [])) (K, E)) u (get (val (f_hess (s_compose sf [sg]) qs i j))).
Proof.
  intros [Ld Vd] Hi Hj. pose proof (df_ps _ _ _ _ _ F) as PK. pose proof (df_pe _ _ _ _ _ F) as PE. destruct Gd as (Xs & Mx & My & Vs). destruct Hd as (Xh & Mxh & Myh & Vh). assert (Hj' : (j < length ss)%nat) by lia.
  assert (Pi : posl (flat (nth i ss ([], [])))) by (exact (proj1 (Forall_forall _ _) Pss _ (nth_In _ _ Hi))).
  assert (Pj : posl (flat (nth j ss ([], [])))) by (exact (proj1 (Forall_forall _ _) Pss _ (nth_In _ _ Hj'))).
  destruct Rg as (_ & _ & Lh & _ & G). destruct (G i Hi) as [Lr Gr]. specialize (Gr j Hj).
  unfold ceval_hess. cbn [enum length seq combine ofold Nat.ltb Nat.leb]. unfold rnth at 1. cbn [nth_error rbind]. rewrite (rnth2_nth gh i j tzero) by lia. cbn [rbind].
  destruct (rdrop false (Qm mf) _ _ _ Gr) as (hd & Ehd & Rhd). rewrite Ehd. cbn [rbind].
  destruct (rdot_right false (Qm mf) _ _ K E g hd _ PK NK Xs Mx Rhd) as (r & Er & Rr). rewrite Er. cbn [rbind].
  assert (SP : spos (SH (flat (nth i ss ([], []))) (flat (nth j ss ([], []))) K E)) by (repeat split; assumption).
  assert (NS : nonscalar (SH (flat (nth i ss ([], []))) (flat (nth j ss ([], []))) K E)) by (now apply nonsc).
  destruct (radd_or0 false false (Qm mf) _ tzero r _ _ SP NS (rep_tzero _ _ (fun _ _ _ _ => 0) (fun x y n d _ => eq_refl)) Rr) as (r1 & Er1 & Rr1). rewrite Er1. cbn [rbind].
  unfold rnth2. unfold rnth at 1 2. cbn [nth_error rbind]. rewrite (rnth_nth gd i tzero), (rnth_nth gd j tzero) by lia. cbn [rbind].
  assert (Rh : rep true (fun a b => a = idm (length K) /\ b = idm (length K)) (SH K K K E) (PT h) (get (val (f_hess sf [val (f_call sg qs)] 0 0)))).
  { right. split; [|exact Vh]. split; [split; [exact Xh|split; assumption]|]. apply rank_not_zero. apply (xfits_rank _ h Xh). now apply nonsc. }
  destruct (rquad (Qm mf) (Qm mf) _ _ K E (PT h) (nth i gd tzero) (nth j gd tzero) _ _ _ PK NK Pi Pj PE Rh (Vd i Hi) (Vd j Hj')) as (q & Eq & Rq). rewrite Eq. cbn [rbind].
  apply (rep_weaken true _ (Qm mf)) in Rq; [|intros a b [(a' & Ha) (b' & Hb)] f [Hf|Hf]; [apply Ha|apply Hb]; now left].
  destruct (radd false true (Qm mf) _ r1 q _ _ SP NS Rr1 Rq) as (w & Ew & Rw). rewrite Ew. cbn [rbind orb] in *. exists w. split; [reflexivity|]. unfold hsh. cbn [fst snd].
  destruct (FuncCompose.compose_hess_ok ss (o :: nil) (K, E) sf [sg] Wf (WgF ss o sg Wg) qs i j Hs Hi Hj) as (g' & Eg & _ & Vg). rewrite Eg. cbn [val].
  eapply rep_false. eapply rep_ext; [exact Rw|]. intros x y n e (I1 & I2 & I3 & I4). cbn [SX SY SN SD] in *. rewrite Vg. unfold FuncCompose.CH. cbn [length seq]. rewrite !Rsum_cons, !Rsum_nil, !Rplus_0_r, Rplus_0_l, Rplus_comm.
  match goal with |- ?a + ?b = ?c + ?d => cut (a = c); [intros ->; cut (b = d); [intros ->; reflexivity|]|reflexivity] end.
  unfold drT. apply Rsum_ext. intros N HN. cbn [nth FuncCompose.df FuncCompose.gvs map]. f_equal.
  + unfold dropT, hess_at. destruct (Nat.leb_spec j i); [reflexivity|lia].
  + unfold FuncCompose.df, FuncCompose.gvs. cbn [map]. apply Vs. repeat split; cbn; auto.
Qed.
End At.
Theorem compose_eok : eok ss (K, E) (fun ps => Df [val (f_call sg ps)] /\ Dg ps) mf (fun _ => true) false (o_compose tf [tg]) (s_compose sf [sg]).
Proof.
  intros ps qs Pp [d1 d2]. destruct (df_ng _ _ _ _ _ F) as [N1 N2]. destruct (df_nh _ _ _ _ _ F) as [N3 N4]. cbn [o_compose o_eval]. rewrite N1, N3. cbn [negb andb]. unfold compose_evalP. cbn [rmapM].
  destruct (EG ps qs Pp d2) as ([[v gg] gh] & Ev & Rg). rewrite Ev. cbn [rbind rmapM fst snd map]. destruct (ce_drop qs v gg gh Rg) as (gd & Ed & Hd). rewrite Ed. cbn [rbind].
  assert (Pv : prms (o :: nil) [v] [val (f_call sg qs)]).
  { split; [reflexivity|]. split; [constructor; [exact (FuncAffine.call_st Wg qs (proj1 (proj2 Pp)))|constructor]|]. intros [|i] Hi; [|cbn in Hi; lia]. destruct Rg as ([(? & _)|(t & -> & Pt)] & _); [discriminate|exact Pt]. }
  destruct (EF [v] [val (f_call sg qs)] Pv d1) as (t & g & h & Ef & Pt & Hg & Hh). rewrite Ef. cbn [rbind]. rewrite (proj1 Pp).
  destruct (rmapM_seq (fun i => let! u := ceval_grad [PT g] [gd] i in let! row := rmapM (ceval_hess [PT g] [[PT h]] [gd] [gh] i) (seq 0 (Datatypes.S i)) in Ok (u, row))
    (fun i ur => rep true (Qm mf) (gsh (nth i ss ([], [])) (K, E)) (fst ur) (get (val (f_grad (s_compose sf [sg]) qs i))) /\
      length (snd ur) = Datatypes.S i /\ forall j, (j <= i)%nat -> rep false (Qm mf) (hsh (nth i ss ([], [])) (nth j ss ([], [])) (K, E)) (nth j (snd ur) tzero) (get (val (f_hess (s_compose sf [sg]) qs i j)))) (tzero, []) (length ss)) as (rows & Er & Lr & Vr).
  { intros i Hi. destruct (ce_grad ps qs g Pp Hg gd i Hd Hi) as (u & Eu & U). rewrite Eu. cbn [rbind].
    destruct (rmapM_seq (ceval_hess [PT g] [[PT h]] [gd] [gh] i) (fun j u => rep false (Qm mf) (hsh (nth i ss ([], [])) (nth j ss ([], [])) (K, E)) u (get (val (f_hess (s_compose sf [sg]) qs i j)))) tzero (Datatypes.S i)) as (row & Ew & Lw & Vw).
    - intros j Hj. apply (ce_hess ps qs v gg gh g h Pp Rg Hg Hh gd i j Hd Hi). lia.
    - rewrite Ew. cbn [rbind]. exists (u, row). cbn [fst snd]. split; [reflexivity|]. split; [exact U|]. split; [exact Lw|]. intros j Hj. apply Vw. lia. }
  rewrite Er. cbn [rbind]. eexists. split; [reflexivity|]. split.
  - rewrite (FuncCompose.compose_call_ok ss (o :: nil) (K, E) sf [sg] Wf (WgF ss o sg Wg) qs (proj1 (proj2 Pp))). right. exists t. split; [reflexivity|]. exact Pt.
  - split; [now rewrite map_length|]. split; [now rewrite map_length|]. split.
    + intros i Hi. change tzero with (fst (tzero, @nil pval)). rewrite map_nth. apply (Vr i Hi).
    + intros i Hi. change (@nil pval) with (snd (tzero, @nil pval)) at 1 2. rewrite map_nth. apply (Vr i Hi).
Qed.
End Comp.
End ex.
