(** Every expression (ETSpec.v) has a dense function that both its methods and its
    eval agree with. *)
From Verif Require Import Prelude DenseModel AnalyticSpec DenseProofs NDArray NDProofs TensorModel TensorSpec TensorSpecOps TensorLemmas TensorBasic TensorSum TensorSumMain TensorBin TensorArith TensorShape TensorExpand TensorGeneric TensorGSum TensorDotCore TensorDot TensorUfunc TensorUfuncP FuncModel FuncSpec FTModel FTSpec FTRep FTRep2 FTRep3 FTVal FTDiag FTRefine FTPrim FTAffine FTNest FTWrap FTSum FTCompose FTBuilt LTModel ETModel ETRefine FTKeep ETNest ETKeep ETWrap ETCompose ETSum ETSpec.
From Verif Require FuncPrim FuncCompose FuncWrapP FuncLemmas FuncAffine FuncSum.
From Coquelicot Require Import Coquelicot.
From Coq Require Import Reals Lra Sorted.
Import List ListNotations.
Open Scope R_scope.
Section ex.
Context {ex : exdims}.
Lemma eouter_outer s E D o : eouter s E D o -> outer s E D (o_f o).
Proof. induction 1; cbn [o_f map ETModel.o_compose ETModel.o_Exp ETModel.o_Log ETModel.o_Logistic ETModel.o_ArcTan ETModel.o_Poisson ETModel.o_LogNegativeBinomial o_default ETModel.o_affine]; now constructor. Qed.
Definition tatom_of (a : eatom) : tatom := mkTAtom (ea_w a) (o_f (ea_x a)) (ea_o a) (ea_mf a) (ea_dep a) (ea_col a).
Lemma ebuilt_tbuilt ss out D mf dep col o : ebuilt ss out D mf dep col o -> tbuilt ss out D mf dep col (o_f o).
Proof.
  induction 1 as [sh P| |a P|ss a P|s E D o O|ss out D D' mf dep col o HD _ IH|ss out D mf dep col o a b Ha Hb _ IH
    |ss o D mf dep col w f Hn Hb Hw Ho Hf _ IH|ss D ats Pss Ne Hw Bc NJ Dr Mf _ IH|ss o E Df Dg mf dep f g Pss NK Dp O _ IH].
  - now apply tb_X.
  - apply tb_Scalar.
  - now apply tb_Vector.
  - now apply tb_Constant.
  - apply tb_outer. now apply eouter_outer.
  - eapply tb_domain; eauto.
  - now apply tb_affine.
  - now apply tb_wrap.
  - assert (Eo : map ta_o (map tatom_of ats) = map ea_o ats) by (rewrite map_map; reflexivity).
    cbn [o_sum o_f]. rewrite map_map. replace (map (fun x => (ea_w x, o_f (ea_x x))) ats) with (map (fun a => (ta_w a, ta_f a)) (map tatom_of ats)) by (rewrite map_map; reflexivity).
    replace (forallb ea_col ats) with (forallb ta_col (map tatom_of ats)) by (clear; induction ats as [|a l IH]; cbn; [reflexivity|now rewrite IH]).
    replace (flat_map ea_mf ats) with (flat_map ta_mf (map tatom_of ats)) by (rewrite !flat_map_concat_map, map_map; reflexivity).
    rewrite <- Eo in Bc, NJ, Dr, Mf |- *.
    assert (TB : tbuilt ss (join (map ta_o (map tatom_of ats))) D (flat_map ta_mf (map tatom_of ats)) (fun i => existsb (fun a => ta_dep a i) (map tatom_of ats)) (forallb ta_col (map tatom_of ats)) (t_sum (map (fun a => (ta_w a, ta_f a)) (map tatom_of ats)) 0)).
    { apply tb_sum; auto.
      - destruct ats; [contradiction|discriminate].
      - apply Forall_map. exact Hw.
      - apply Forall_map. exact Dr.
      - apply Forall_map. exact Mf.
      - intros a Ha. apply in_map_iff in Ha as (a' & <- & Ha). now apply IH. }
    revert TB. generalize (t_sum (map (fun a => (ta_w a, ta_f a)) (map tatom_of ats)) 0). intros f.
    assert (Ed : (fun i => existsb (fun a => ta_dep a i) (map tatom_of ats)) = (fun i => existsb (fun a => ea_dep a i) ats)).
    { apply FunctionalExtensionality.functional_extensionality. intros i. clear. induction ats as [|a l IH]; cbn; [reflexivity|now rewrite IH]. }
    rewrite Ed. auto.
  - cbn [o_compose o_f map]. apply (tb_compose ss o E Df Dg mf dep); auto. now apply eouter_outer.
Qed.

Lemma eouter_dense s E D o : eouter s E D o -> exists sf, dform s E (Dd (s :: nil) D) (o_f o) sf /\ eform s E (Dd (s :: nil) D) o sf /\ correct (s :: nil) (flat s, E) (Dd (s :: nil) D) sf.
Proof.
  assert (Fl : forall sh, flat (sh, @nil nat) = sh) by (intros; unfold flat; apply app_nil_r).
  induction 1 as [sh P|sh P|sh P|sh P|size s P Hs|gl size r s P Hs Hr|s E D o a b Ha _ (sf & F & EF & C)|s E D1 D2 f1 f2 NK _ (sf1 & F1 & E1 & C1) _ (sf2 & F2 & E2 & C2)|s E D f NK _ (sf & F & EF & C)].
  - assert (F : dform (sh, []) [] (Dd ((sh, []) :: nil) anyP) t_Exp s_Exp) by (apply (dform_domain _ _ anyD); [intros; exact I|now apply Exp_dform]).
    exists s_Exp. split; [exact F|]. split; [exact (default_eform _ _ _ _ _ _ Exp_eval F)|]. rewrite Fl. eapply FuncPrim.correct_weaken; [|apply FuncPrim.Exp_correct]. intros; exact I.
  - assert (F : dform (sh, []) [] (Dd ((sh, []) :: nil) (posP (sh, []))) t_Log s_Log) by (apply (dform_domain _ _ (FuncPrim.positive (sh, []))); [apply posP_Dd|now apply Log_dform]).
    exists s_Log. split; [exact F|]. split; [exact (default_eform _ _ _ _ _ _ (fun _ => eq_refl) F)|]. rewrite Fl. eapply FuncPrim.correct_weaken; [|apply FuncPrim.Log_correct]. apply posP_Dd.
  - assert (F : dform (sh, []) [] (Dd ((sh, []) :: nil) anyP) t_Logistic s_Logistic) by (apply (dform_domain _ _ anyD); [intros; exact I|now apply Logistic_dform]).
    exists s_Logistic. split; [exact F|]. split; [exact (default_eform _ _ _ _ _ _ Logistic_eval F)|]. rewrite Fl. eapply FuncPrim.correct_weaken; [|apply FuncPrim.Logistic_correct]. intros; exact I.
  - assert (F : dform (sh, []) [] (Dd ((sh, []) :: nil) anyP) t_ArcTan s_ArcTan) by (apply (dform_domain _ _ anyD); [intros; exact I|now apply ArcTan_dform]).
    exists s_ArcTan. split; [exact F|]. split; [exact (default_eform _ _ _ _ _ _ (fun _ => eq_refl) F)|]. rewrite Fl. eapply FuncPrim.correct_weaken; [|apply FuncPrim.ArcTan_correct]. intros; exact I.
  - assert (F : dform s (size :: nil) (Dd (s :: nil) anyP) (t_Poisson size) (s_Poisson size)) by (apply (dform_domain _ _ anyD); [intros; exact I|now apply rows_dform]).
    exists (s_Poisson size). split; [exact F|]. split; [exact (default_eform _ _ _ _ _ _ (rows_eval_default _ _ _ _) F)|]. eapply FuncPrim.correct_weaken; [|apply FuncPrim.Poisson_correct]. intros; exact I.
  - assert (F : dform s (size :: nil) (Dd (s :: nil) (posP s)) (t_LogNegativeBinomial gl size r) (s_LogNegativeBinomial gl size r)) by (apply (dform_domain _ _ anyD); [intros; exact I|now apply rows_dform]).
    exists (s_LogNegativeBinomial gl size r). split; [exact F|]. split; [exact (default_eform _ _ _ _ _ _ (rows_eval_default _ _ _ _) F)|]. eapply FuncPrim.correct_weaken; [|apply FuncPrim.LNB_correct; exact Hr]. apply posP_Dd.
  - exists (s_affine sf a b). pose proof (c_wf _ _ _ _ C) as W. split; [now apply affine_dform|]. split; [now apply affine_eform|now apply FuncAffine.affine_correct].
  - exists (s_compose sf1 (sf2 :: nil)). pose proof (c_wf _ _ _ _ C1) as W1. pose proof (c_wf _ _ _ _ C2) as W2. rewrite Fl in C1, W1.
    assert (W1' : wellformed ((flat s, []) :: nil) (flat (flat s, []), E) sf1) by (rewrite Fl; exact W1).
    assert (HD : forall qs, Dd (s :: nil) (fun ps => (forall v, t_call (o_f f2) ps = Ok v -> D1 (v :: nil)) /\ D2 ps) qs -> Dd ((flat s, []) :: nil) D1 (val (f_call sf2 qs) :: nil) /\ Dd (s :: nil) D2 qs).
    { intros qs (ps & Pp & dv & d). assert (d' : Dd (s :: nil) D2 qs) by (exists ps; auto). split; [|exact d'].
      destruct (df_call _ _ _ _ _ F2 ps qs Pp d') as (v & Ev & Pv). exists (PT v :: nil). split; [|now apply dv]. eapply nest_arg; eauto. }
    split; [|split].
    + eapply dform_domain; [exact HD|]. exact (nest_dform s E (Dd ((flat s, []) :: nil) D1) (Dd (s :: nil) D2) (o_f f1) (o_f f2) sf1 sf2 NK W1' W2 F1 F2).
    + intros ps qs Pp d. destruct (HD qs d) as [d1 d2]. exact (nest_eform s E (Dd ((flat s, []) :: nil) D1) (Dd (s :: nil) D2) f1 f2 sf1 sf2 NK W1' W2 F1 F2 E1 E2 ps qs Pp (conj d1 d2)).
    + assert (WG : Forall2 (fun g o => wellformed (s :: nil) o g) (sf2 :: nil) ((flat s, []) :: nil)) by (constructor; [exact W2|constructor]).
      eapply FuncPrim.correct_weaken; [exact HD|]. apply (FuncCompose.compose_correct (s :: nil) ((flat s, []) :: nil) (flat s, E) sf1 (sf2 :: nil) W1 WG (Dd ((flat s, []) :: nil) D1) (Dd (s :: nil) D2) C1).
      intros k Hk. assert (k = 0%nat) as -> by (cbn in Hk; lia). exact C2.
  - exists (s_compose s_Exp (sf :: nil)). pose proof (c_wf _ _ _ _ C) as W. split; [exact (keep_dform s E _ (o_f f) sf NK W F)|]. split; [exact (keep_eform s E _ f sf NK W F EF)|].
    pose proof (FuncPrim.Exp_correct (flat s, E)) as CE.
    assert (WG : Forall2 (fun g o => wellformed (s :: nil) o g) (sf :: nil) ((flat s, E) :: nil)) by (constructor; [exact W|constructor]).
    eapply FuncPrim.correct_weaken; [|apply (FuncCompose.compose_correct (s :: nil) ((flat s, E) :: nil) (flat s, E) s_Exp (sf :: nil) (c_wf _ _ _ _ CE) WG FuncPrim.everywhere (Dd (s :: nil) D) CE)].
    + intros qs d. split; [exact I|exact d].
    + intros k Hk. assert (k = 0%nat) as -> by (cbn in Hk; lia). exact C.
Qed.

Definition edense ss out D mf dep col (o : tobj) : Prop :=
  exists sf, correct ss out (Dd ss D) sf /\ hess_both ss out sf /\ refines ss out (Dd ss D) mf dep col (o_f o) sf /\ eok ss out (Dd ss D) mf dep col o sf.
Lemma default_edense ss out D mf dep col f : densely ss out D mf dep col f -> edense ss out D mf dep col (o_default f).
Proof. intros (sf & C & B & R). exists sf. split; [exact C|]. split; [exact B|]. split; [exact R|]. now apply default_eok. Qed.
Lemma choose_e (P : eatom -> sfun -> Prop) ats : (forall a, In a ats -> exists s, P a s) -> exists l, Forall2 P ats l.
Proof.
  induction ats as [|a l IH]; intros H; [exists []; constructor|]. destruct (H a (or_introl eq_refl)) as (s & Hs). destruct IH as (l' & Hl); [intros b Hb; apply H; now right|]. exists (s :: l'). now constructor.
Qed.
Definition eat (a : eatom) (s : sfun) : atom := mkAtom (ea_w a) (o_f (ea_x a)) s (ea_o a) (ea_mf a) (ea_dep a) (ea_col a).
Definition zip_e (ats : list eatom) (l : list sfun) : list (atom * tobj) := map (fun '(a, s) => (eat a s, ea_x a)) (combine ats l).
Lemma zip_e_map {B} (F : eatom -> B) (G : atom * tobj -> B) ats l : length ats = length l -> (forall a s, G (eat a s, ea_x a) = F a) -> map G (zip_e ats l) = map F ats.
Proof. revert l. induction ats as [|a ats IH]; intros [|s l] L H; try discriminate; [reflexivity|]. cbn [zip_e combine map]. rewrite H. f_equal. apply IH; auto. Qed.
Lemma zip_e_forall (P : atom * tobj -> Prop) (Q : eatom -> sfun -> Prop) ats l : Forall2 Q ats l -> (forall a s, In a ats -> Q a s -> P (eat a s, ea_x a)) -> Forall P (zip_e ats l).
Proof. intros F. induction F as [|a s ats l Hq F IH]; intros H; cbn [zip_e combine map]; constructor. - apply H; [now left|exact Hq]. - apply IH. intros a' s' Ha. apply H. now right. Qed.
Lemma zip_e_forall' (P : atom -> Prop) (Q : eatom -> sfun -> Prop) ats l : Forall2 Q ats l -> (forall a s, In a ats -> Q a s -> P (eat a s)) -> Forall P (map fst (zip_e ats l)).
Proof. intros F H. apply Forall_map. apply (zip_e_forall _ _ _ _ F). intros a s Ha Hq. cbn [fst]. now apply H. Qed.

Theorem ebuilt_dense ss out D mf dep col o : ebuilt ss out D mf dep col o -> edense ss out D mf dep col o.
Proof.
  induction 1 as [sh P| |a P|ss a P|s E D o O|ss out D D' mf dep col o HD _ (sf & C & B & Rf & Ef)|ss out D mf dep col o a b Ha Hb _ (sf & C & B & Rf & Ef)
    |ss o D mf dep col w f Hn Hb Hw Ho Hf _ (sf & C & B & Rf & Ef)|ss D ats Pss Ne Hw Bc NJ Dr Mf _ IH|ss o E Df Dg mf dep f g Pss NK Dp O _ (sg & C & B & Rf & Ef)].
  - apply default_edense, tbuilt_dense. now apply tb_X.
  - apply default_edense, tbuilt_dense. apply tb_Scalar.
  - apply default_edense, tbuilt_dense. now apply tb_Vector.
  - apply default_edense, tbuilt_dense. now apply tb_Constant.
  - destruct (eouter_dense _ _ _ _ O) as (sf & F & EF & C). exists sf. split; [exact C|]. split; [apply FuncPrim.both_1|]. split; [now apply dform_refines|now apply eform_eok].
  - exists sf. split; [|split; [exact B|split]]. + eapply FuncPrim.correct_weaken; [|exact C]. intros qs. now apply Dd_weaken. + eapply refines_domain; [|exact Rf]. intros qs. now apply Dd_weaken.
    + eapply eok_domain; [|exact Ef]. intros qs. now apply Dd_weaken.
  - exists (s_affine sf a b). pose proof (c_wf _ _ _ _ C) as W. split; [now apply FuncAffine.affine_correct|]. split; [now apply FuncAffine.affine_both|]. split; [now apply affine_refines|now apply affine_eok].
  - exists (s_wrap w sf). pose proof (c_wf _ _ _ _ C) as W. assert (OO : FuncWrapP.order_ok ss o w sf) by (right; exact B).
    assert (HD : forall qs, Dd ss (fun ps => D (map (fun k => nth k ps (PNum 0)) (w_pm w))) qs -> Dd (FuncWrapP.ssub ss w) D (FuncWrapP.psub w qs)).
    { intros qs (ps & Pp & d). exists (vsub w ps). split; [now apply prms_sub|exact d]. }
    split; [|split; [|split]].
    + eapply FuncPrim.correct_weaken; [exact HD|]. apply (FuncWrapP.wrap_correct ss o w sf Hn Hb Hw (Dd (FuncWrapP.ssub ss w) D)); auto.
    + apply FuncWrapP.wrap_both; auto.
    + eapply refines_domain; [exact HD|]. apply wrap_refines; auto.
    + eapply eok_domain; [exact HD|]. apply wrap_eok; auto.
  - destruct (choose_e _ ats IH) as (l & Fl). pose proof (Forall2_length' _ _ _ Fl) as L. set (az := zip_e ats l).
    assert (Eo : map a_o (map fst az) = map ea_o ats) by (rewrite map_map; apply zip_e_map; auto).
    assert (Ex : map (fun p => (a_w (fst p), snd p)) az = map (fun a => (ea_w a, ea_x a)) ats) by (apply zip_e_map; auto).
    assert (Et : tats (map fst az) = map (fun a => (ea_w a, o_f (ea_x a))) ats) by (unfold tats; rewrite map_map; apply zip_e_map; auto).
    assert (Ec : forallb a_col (map fst az) = forallb ea_col ats).
    { assert (E : map (fun p => a_col (fst p)) az = map ea_col ats) by (apply zip_e_map; auto). clear - E. revert E. generalize az. induction ats as [|a ats IH]; intros [|z az0] E; try discriminate; [reflexivity|]. cbn in *. injection E as E1 E2. rewrite E1. f_equal. now apply IH. }
    assert (Em : smf (map fst az) = flat_map ea_mf ats) by (unfold smf; rewrite !flat_map_concat_map, map_map; f_equal; apply zip_e_map; auto).
    assert (Ed : forall i, existsb (fun a => a_dep a i) (map fst az) = existsb (fun a => ea_dep a i) ats).
    { intros i. assert (E : map (fun p => a_dep (fst p) i) az = map (fun a => ea_dep a i) ats) by (apply zip_e_map; auto). clear - E. revert E. generalize az. induction ats as [|a ats IH]; intros [|z az0] E; try discriminate; [reflexivity|]. cbn in *. injection E as E1 E2. rewrite E1. f_equal. now apply IH. }
    assert (Ca : Forall (fun a => correct ss (a_o a) (Dd ss D) (a_s a)) (map fst az)) by (apply (zip_e_forall' _ _ _ _ Fl); intros a s _ Q; apply Q).
    assert (Ba : Forall (fun a => hess_both ss (a_o a) (a_s a)) (map fst az)) by (apply (zip_e_forall' _ _ _ _ Fl); intros a s _ Q; apply Q).
    assert (Ra : Forall (fun a => refines ss (a_o a) (Dd ss D) (a_mf a) (a_dep a) (a_col a) (a_t a) (a_s a)) (map fst az)) by (apply (zip_e_forall' _ _ _ _ Fl); intros a s _ Q; apply Q).
    assert (Ea : Forall (fun p => eok ss (a_o (fst p)) (Dd ss D) (a_mf (fst p)) (a_dep (fst p)) (a_col (fst p)) (snd p) (a_s (fst p))) az) by (apply (zip_e_forall _ _ _ _ Fl); intros a s _ Q; apply Q).
    assert (Wa : Forall (fun a => wellformed ss (a_o a) (a_s a)) (map fst az)) by (eapply Forall_impl; [|exact Ca]; intros a Q; apply Q).
    assert (Ws : Forall2 (fun p o => wellformed ss o (snd p)) (sats (map fst az)) (map a_o (map fst az))) by (now apply wf_sats).
    assert (Nz : map fst az <> []). { intros E. apply Ne. destruct ats; [reflexivity|]. destruct l; [discriminate|]. discriminate E. }
    rewrite <- Eo in Bc, NJ, Dr, Mf |- *.
    assert (H1 : Forall (fun a => a_w a <> 0) (map fst az)) by (apply (zip_e_forall' _ _ _ _ Fl); intros a s Ha _; cbn [eat a_w]; exact (proj1 (Forall_forall _ _) Hw a Ha)).
    assert (H2 : Forall (fun a => DR (snd (a_o a)) (snd (join (map a_o (map fst az))))) (map fst az)) by (apply (zip_e_forall' _ _ _ _ Fl); intros a s Ha _; cbn [eat a_o]; exact (proj1 (Forall_forall _ _) Dr a Ha)).
    assert (H3 : Forall (fun a => forall f, In f (a_mf a) -> nth f (fst (a_o a)) 1%nat = nth f (fst (join (map a_o (map fst az)))) 1%nat) (map fst az)) by (apply (zip_e_forall' _ _ _ _ Fl); intros a s Ha _; cbn [eat a_mf a_o]; exact (proj1 (Forall_forall _ _) Mf a Ha)).
    exists (s_sum (sats (map fst az)) 0). split; [|split; [|split]].
    + apply FuncSum.sum_correct; auto. clear - Ca. unfold sats. induction Ca as [|a l0 Q Ca IH]; cbn [map]; constructor; auto.
    + apply FuncSum.sum_both; auto. unfold sats. apply Forall_map. apply Forall_forall. intros a Ha. exists (a_o a). split; [now apply in_map|]. exact (proj1 (Forall_forall _ _) Ba a Ha).
    + cbn [o_sum o_f].
      match goal with |- context [t_sum ?l 0] => assert (EQ : l = tats (map fst az)); [rewrite Et, map_map; apply map_ext; reflexivity|rewrite EQ] end. rewrite <- Ec, <- Em.
      assert (R0 : refines ss (join (map a_o (map fst az))) (Dd ss D) (smf (map fst az)) (fun i => existsb (fun a => a_dep a i) (map fst az)) (forallb a_col (map fst az)) (t_sum (tats (map fst az)) 0) (s_sum (sats (map fst az)) 0)).
      { apply sum_refines; auto. }
      destruct R0 as [A1 A2 A3 A4 A5 A6 A7 A8 A9]. constructor; auto.
      * intros ps qs i Pp d Hi. rewrite <- Ed. now apply A2.
      * intros N i. rewrite <- Ed. now apply A9.
    + rewrite <- Ex, <- Ec, <- Em. pose proof (sum_eok ss (Dd ss D) az Pss Nz H1 Bc NJ H2 Wa Ra H3 Ea) as S0.
      intros ps qs Pp d. destruct (S0 ps qs Pp d) as ([[v gs] hs] & E & V & Lg & Lh & G & H). exists (v, gs, hs). split; [exact E|]. split; [exact V|]. split; [exact Lg|]. split; [exact Lh|]. split; [|exact H].
      intros i Hi. rewrite <- Ed. now apply G.
  - destruct (eouter_dense _ _ _ _ O) as (sf & F & EF & Cf). pose proof (c_wf _ _ _ _ Cf) as Wf. pose proof (c_wf _ _ _ _ C) as Wg.
    exists (s_compose sf (sg :: nil)).
    assert (HD : forall qs, Dd ss (fun ps => (forall v, t_call (o_f g) ps = Ok v -> Df (v :: nil)) /\ Dg ps) qs -> Dd (o :: nil) Df (val (f_call sg qs) :: nil) /\ Dd ss Dg qs).
    { intros qs (ps & Pp & dv & d). assert (d' : Dd ss Dg qs) by (exists ps; auto). split; [|exact d'].
      destruct (comp_arg ss o (Dd ss Dg) mf dep (o_f g) sg Wg Rf ps qs Pp d') as (v & Ev & P). exists (v :: nil). split; [exact P|]. apply dv. cbn [rmapM] in Ev. destruct (t_call (o_f g) ps); cbn in Ev; congruence. }
    assert (WG : Forall2 (fun g o => wellformed ss o g) (sg :: nil) (o :: nil)) by (constructor; [exact Wg|constructor]).
    assert (K1 : forall k, (k < length (sg :: nil))%nat -> k = 0%nat) by (cbn; intros; lia).
    split; [|split; [|split]].
    + eapply FuncPrim.correct_weaken; [exact HD|]. apply (FuncCompose.compose_correct ss (o :: nil) (flat o, E) sf (sg :: nil) Wf WG (Dd (o :: nil) Df) (Dd ss Dg) Cf). intros k Hk. rewrite (K1 k Hk). exact C.
    + apply (FuncCompose.compose_both ss (o :: nil)); auto. * apply Cf. * intros k Hk. rewrite (K1 k Hk). apply C. * intros k Hk. rewrite (K1 k Hk). exact B.
    + eapply refines_domain; [exact HD|]. apply (compose_refines ss o E (Dd (o :: nil) Df) (Dd ss Dg) mf dep (o_f f) (o_f g) sf sg); auto.
    + eapply eok_domain; [exact HD|]. apply (compose_eok ss o E (Dd (o :: nil) Df) (Dd ss Dg) mf dep f g sf sg); auto.
Qed.

(** the results of eval, read as a function object, behave as the other methods *)
Theorem ebuilt_of_eval ss out D mf dep col o : ebuilt ss out D mf dep col o -> densely ss out D mf dep col (of_eval o).
Proof. intros T. destruct (ebuilt_dense _ _ _ _ _ _ _ T) as (sf & C & B & R & E). exists sf. split; [exact C|]. split; [exact B|]. now apply eok_refines. Qed.
Theorem ebuilt_agrees ss out D mf dep col o ps : ebuilt ss out D mf dep col o -> are_pars ss ps -> D ps -> eval_agrees ss out o ps.
Proof.
  intros T A d. destruct (ebuilt_dense _ _ _ _ _ _ _ T) as (sf & C & _ & Rf & Ef). pose proof (are_pars_prms _ _ A) as Pp. pose proof (are_pars_Dd _ _ _ A d) as Dp.
  destruct (Ef ps _ Pp Dp) as ([[v gs] hs] & E & V & Lg & Lh & G & H). destruct (rf_call _ _ _ _ _ _ _ _ Rf ps _ Pp Dp) as (v' & Ev & V').
  pose proof (FuncAffine.call_st (c_wf _ _ _ _ C) _ (proj1 (proj2 Pp))) as Sq.
  exists v, gs, hs, v'. split; [exact E|]. split; [exact Ev|]. split; [|split; [exact Lg|split; [|split; [exact Lh|split]]]].
  - intros n e Hn He. unfold same_at. now rewrite (vrel_get _ _ _ _ n e Sq V Hn He), (vrel_get _ _ _ _ n e Sq V' Hn He).
  - intros i Hi. destruct (rf_grad _ _ _ _ _ _ _ _ Rf ps _ i Pp Dp Hi) as (g & Eg & Rg). exists g. split; [exact Eg|]. intros x n e Hx Hn He. unfold same_at. rewrite (nth_indep _ _ tzero) by lia.
    rewrite (rep_get _ _ _ _ _ x [] n e (G i Hi)), (rep_get _ _ _ _ _ x [] n e Rg); [reflexivity| |]; (repeat split; auto; now left).
  - intros i Hi. apply H. exact Hi.
  - intros i j Hi Hj. destruct (rf_hess _ _ _ _ _ _ _ _ Rf ps _ i j Pp Dp Hi Hj) as (h & Eh & Rh). exists h. split; [exact Eh|]. intros x y n e Hx Hy Hn He. unfold same_at. destruct (H i Hi) as [Lr Hr]. rewrite (nth_indep _ _ tzero) by lia.
    rewrite (rep_get _ _ _ _ _ x y n e (Hr j Hj)), (rep_get _ _ _ _ _ x y n e Rh); [reflexivity| |]; repeat split; auto.
Qed.
End ex.
