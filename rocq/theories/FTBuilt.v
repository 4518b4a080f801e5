(** Every function object built from the primitives with the combinators has
    right derivatives, with all the values, gradients and Hessians computed and
    stored as Tensors and GenericTensors. *)
From Verif Require Import Prelude DenseModel AnalyticSpec DenseProofs NDArray NDProofs TensorModel TensorSpec TensorSpecOps TensorLemmas TensorBasic TensorSum TensorSumMain TensorBin TensorArith TensorShape TensorExpand TensorGeneric TensorGSum TensorDotCore TensorDot TensorUfunc TensorUfuncP FuncModel FuncSpec FTModel FTSpec FTRep FTRep2 FTRep3 FTVal FTDiag FTRefine FTPrim FTAffine FTNest FTKeep FTWrap FTSum FTCompose.
From Verif Require FuncPrim FuncCompose FuncWrapP FuncLemmas FuncAffine FuncSum.
From Coquelicot Require Import Coquelicot.
From Coq Require Import Reals Lra Sorted.
Import List ListNotations.
Open Scope R_scope.
Section ex.
Context {ex : exdims}.

Definition anyP : list pval -> Prop := fun _ => True.
(** the entries of the first parameter are positive *)
Definition posP (s : pst) : list pval -> Prop := fun ps => forall x, In x (indices (flat s)) -> 0 < pentry (nth 0 ps (PNum 0)) x.

(** [outer s E D f]: [f] can be the outer function of a Compose: a function of one
    parameter of shape [s] applied entry by entry, whose values have dim axes [E] *)
Inductive outer : pst -> list nat -> (list pval -> Prop) -> tfun -> Prop :=
| o_Exp sh : posl sh -> outer (sh, []) [] anyP t_Exp
| o_Log sh : posl sh -> outer (sh, []) [] (posP (sh, [])) t_Log
| o_Logistic sh : posl sh -> outer (sh, []) [] anyP t_Logistic
| o_ArcTan sh : posl sh -> outer (sh, []) [] anyP t_ArcTan
| o_Poisson size s : posl (flat s) -> (1 <= size)%nat -> outer s (size :: nil) anyP (t_Poisson size)
| o_LogNegativeBinomial gammaln size r s : posl (flat s) -> (1 <= size)%nat -> 0 < r ->
    outer s (size :: nil) (posP s) (t_LogNegativeBinomial gammaln size r)
| o_affine s E D f a b : a <> 0 -> outer s E D f -> outer s E D (t_affine f a b)
(** [f1 @ f2]; Python reads [Poisson(n) @ Exp() @ foo] as [(Poisson(n) @ Exp()) @ foo] *)
| o_comp s E D1 D2 f1 f2 : flat s <> [] -> outer (flat s, []) E D1 f1 -> outer s [] D2 f2 ->
    outer s E (fun ps => (forall v, t_call f2 ps = Ok v -> D1 (v :: nil)) /\ D2 ps) (t_compose f1 (f2 :: nil))
(** Exp of a function with dim axes: [NegativeBinomial(n, r)] is [Exp() @ LogNegativeBinomial(n, r)], func_proba.py:110-111 *)
| o_keep s E D f : flat s <> [] -> outer s E D f -> outer s E D (t_compose t_Exp (f :: nil)).

(** an atom of a Sum, with its weight, and what is known about it *)
Record tatom := mkTAtom { ta_w : R; ta_f : tfun; ta_o : pst; ta_mf : list nat; ta_dep : nat -> bool; ta_col : bool }.

(** [tbuilt ss out D mf dep col f]: the expression [f] can be called with
    parameters of shapes [ss] in the domain [D] and gives values of shape [out].
    Besides, derivatives are stored as diagonals along the features [mf] only;
    if [dep i], the gradient for parameter [i] is never the placeholder
    Tensor(0); and unless [col], neither is the value. *)
Inductive tbuilt : list pst -> pst -> (list pval -> Prop) -> list nat -> (nat -> bool) -> bool -> tfun -> Prop :=
| tb_X sh : posl sh -> tbuilt ((sh, []) :: nil) (sh, []) anyP (seq 0 (length sh)) (fun _ => true) false t_X
| tb_Scalar : tbuilt (([], []) :: nil) ([], []) anyP [] (fun _ => true) false t_Scalar
| tb_Vector a : posl (shp a) -> tbuilt (([], []) :: nil) (shp a, []) anyP [] (fun _ => nonempty (shp a)) false (t_Vector a)
| tb_Constant ss a : posl (shp a) -> tbuilt ss (shp a, []) anyP [] (fun _ => false) false (t_Constant a)
| tb_outer s E D f : outer s E D f -> tbuilt (s :: nil) (flat s, E) D (seq 0 (length (flat s))) (fun _ => nonempty (flat s ++ E)) false f
| tb_domain ss out (D D' : list pval -> Prop) mf dep col f : (forall ps, D' ps -> D ps) -> tbuilt ss out D mf dep col f -> tbuilt ss out D' mf dep col f
| tb_affine ss out D mf dep col f a b : a <> 0 -> b = 0 \/ col = false -> tbuilt ss out D mf dep col f ->
    tbuilt ss out D mf dep col (t_affine f a b)
| tb_wrap ss o D mf dep col w f : NoDup (w_pm w) -> Forall (fun i => i < length ss)%nat (w_pm w) -> FuncLemmas.wmap_ok w o ->
    StronglySorted lt (w_pm w) \/ t_nullh f = true -> flip_fine w ss o mf dep col (t_nullh f) ->
    tbuilt (map (fun k => nth k ss ([], [])) (w_pm w)) o D mf dep col f ->
    tbuilt ss (FuncLemmas.w_out w o) (fun ps => D (map (fun k => nth k ps (PNum 0)) (w_pm w))) (wmf w mf) (wdep w dep) (colw col o) (t_wrap w f)
| tb_sum ss D (ats : list tatom) b : Forall (fun s => posl (flat s)) ss -> ats <> [] -> Forall (fun a => ta_w a <> 0) ats ->
    broadcastable (map ta_o ats) -> flat (join (map ta_o ats)) <> [] ->
    (* if exact: all atoms have the same dim axes *)
    Forall (fun a => DR (snd (ta_o a)) (snd (join (map ta_o ats)))) ats ->
    (* no axis that carries a diagonal is broadcast *)
    Forall (fun a => forall f, In f (ta_mf a) -> nth f (fst (ta_o a)) 1%nat = nth f (fst (join (map ta_o ats))) 1%nat) ats ->
    b = 0 \/ forallb ta_col ats = false ->
    (forall a, In a ats -> tbuilt ss (ta_o a) D (ta_mf a) (ta_dep a) (ta_col a) (ta_f a)) ->
    tbuilt ss (join (map ta_o ats)) D (flat_map ta_mf ats) (fun i => existsb (fun a => ta_dep a i) ats) (forallb ta_col ats)
      (t_sum (map (fun a => (ta_w a, ta_f a)) ats) b)
| tb_compose ss o E Df Dg mf dep f g : Forall (fun s => posl (flat s)) ss -> flat o <> [] ->
    (forall i, (i < length ss)%nat -> dep i = true) ->
    outer o E Df f -> tbuilt ss o Dg mf dep false g ->
    tbuilt ss (flat o, E) (fun ps => (forall v, t_call g ps = Ok v -> Df (v :: nil)) /\ Dg ps) mf (fun _ => true) false (t_compose f (g :: nil)).

(** the dense parameters in the domain *)
Definition Dd (ss : list pst) (D : list pval -> Prop) : list dt -> Prop := fun qs => exists ps, prms ss ps qs /\ D ps.

Lemma refines_domain ss out (D D' : list dt -> Prop) mf dep col tf sf : (forall ps, D' ps -> D ps) -> refines ss out D mf dep col tf sf -> refines ss out D' mf dep col tf sf.
Proof. intros H [A1 A2 A3 A4 A5 A6 A7 A8 A9]. constructor; auto. Qed.
Lemma Dd_weaken ss (D D' : list pval -> Prop) qs : (forall ps, D' ps -> D ps) -> Dd ss D' qs -> Dd ss D qs.
Proof. intros H (ps & P & d). exists ps. auto. Qed.
Lemma pv_parr s p q x : pv s p (parr q) -> In x (indices (flat s)) -> pentry p x = parr q x.
Proof.
  unfold pentry. destruct p as [c|a|t|g]; cbn [pv vden]; [| | |intros []].
  - intros [F <-] Hx. rewrite F in Hx. destruct Hx as [<-|[]]. reflexivity.
  - intros (E1 & E2 & H) Hx. rewrite <- (H x Hx). unfold parr. cbn [ns]. unfold flat in Hx. rewrite E1, app_nil_r, <- E2 in Hx. rewrite <- (indices_length _ _ Hx), firstn_all. unfold get. cbn [xs ys ns ds at_]. now rewrite clamp_in.
  - intros (W & X & Y & N & Dm & H) Hx. unfold parr at 1. rewrite N. pose proof Hx as Hx'. apply in_indices_app in Hx' as [H1 H2]. rewrite H by auto. now rewrite firstn_skipn.
Qed.
Lemma posP_Dd s qs : Dd (s :: nil) (posP s) qs -> FuncPrim.positive s qs.
Proof.
  intros (ps & P & d) x Hx. destruct (prms_1 _ _ _ P) as (p & q & -> & -> & Hq & Pv). cbn [nth] in *. rewrite <- (pv_parr s p q x Pv Hx). now apply d.
Qed.

Lemma outer_dense s E D f : outer s E D f -> exists sf, dform s E (Dd (s :: nil) D) f sf /\ correct (s :: nil) (flat s, E) (Dd (s :: nil) D) sf.
Proof.
  assert (Fl : forall sh, flat (sh, @nil nat) = sh) by (intros; unfold flat; apply app_nil_r).
  induction 1 as [sh P|sh P|sh P|sh P|size s P Hs|gl size r s P Hs Hr|s E D f a b Ha _ (sf & F & C)|s E D1 D2 f1 f2 NK _ (sf1 & F1 & C1) _ (sf2 & F2 & C2)|s E D f NK _ (sf & F & C)].
  - exists s_Exp. split; [apply (dform_domain _ _ anyD); [intros; exact I|now apply Exp_dform]|]. rewrite Fl. eapply FuncPrim.correct_weaken; [|apply FuncPrim.Exp_correct]. intros; exact I.
  - exists s_Log. split; [apply (dform_domain _ _ (FuncPrim.positive (sh, []))); [apply posP_Dd|now apply Log_dform]|]. rewrite Fl. eapply FuncPrim.correct_weaken; [|apply FuncPrim.Log_correct]. apply posP_Dd.
  - exists s_Logistic. split; [apply (dform_domain _ _ anyD); [intros; exact I|now apply Logistic_dform]|]. rewrite Fl. eapply FuncPrim.correct_weaken; [|apply FuncPrim.Logistic_correct]. intros; exact I.
  - exists s_ArcTan. split; [apply (dform_domain _ _ anyD); [intros; exact I|now apply ArcTan_dform]|]. rewrite Fl. eapply FuncPrim.correct_weaken; [|apply FuncPrim.ArcTan_correct]. intros; exact I.
  - exists (s_Poisson size). split; [apply (dform_domain _ _ anyD); [intros; exact I|now apply rows_dform]|]. eapply FuncPrim.correct_weaken; [|apply FuncPrim.Poisson_correct]. intros; exact I.
  - exists (s_LogNegativeBinomial gl size r). split; [apply (dform_domain _ _ anyD); [intros; exact I|now apply rows_dform]|]. eapply FuncPrim.correct_weaken; [|apply FuncPrim.LNB_correct; exact Hr]. apply posP_Dd.
  - exists (s_affine sf a b). pose proof (c_wf _ _ _ _ C) as W. split; [now apply affine_dform|now apply FuncAffine.affine_correct].
  - exists (s_compose sf1 (sf2 :: nil)). pose proof (c_wf _ _ _ _ C1) as W1. pose proof (c_wf _ _ _ _ C2) as W2. rewrite Fl in C1, W1.
    assert (W1' : wellformed ((flat s, []) :: nil) (flat (flat s, []), E) sf1) by (rewrite Fl; exact W1).
    assert (HD : forall qs, Dd (s :: nil) (fun ps => (forall v, t_call f2 ps = Ok v -> D1 (v :: nil)) /\ D2 ps) qs -> Dd ((flat s, []) :: nil) D1 (val (f_call sf2 qs) :: nil) /\ Dd (s :: nil) D2 qs).
    { intros qs (ps & Pp & dv & d). assert (d' : Dd (s :: nil) D2 qs) by (exists ps; auto). split; [|exact d'].
      destruct (df_call _ _ _ _ _ F2 ps qs Pp d') as (v & Ev & Pv). exists (PT v :: nil). split; [|now apply dv]. eapply nest_arg; eauto. }
    split.
    + eapply dform_domain; [exact HD|]. exact (nest_dform s E (Dd ((flat s, []) :: nil) D1) (Dd (s :: nil) D2) f1 f2 sf1 sf2 NK W1' W2 F1 F2).
    + assert (WG : Forall2 (fun g o => wellformed (s :: nil) o g) (sf2 :: nil) ((flat s, []) :: nil)) by (constructor; [exact W2|constructor]).
      eapply FuncPrim.correct_weaken; [exact HD|]. apply (FuncCompose.compose_correct (s :: nil) ((flat s, []) :: nil) (flat s, E) sf1 (sf2 :: nil) W1 WG (Dd ((flat s, []) :: nil) D1) (Dd (s :: nil) D2) C1).
      intros k Hk. assert (k = 0%nat) as -> by (cbn in Hk; lia). exact C2.
  - exists (s_compose s_Exp (sf :: nil)). pose proof (c_wf _ _ _ _ C) as W. split; [now apply keep_dform|].
    pose proof (FuncPrim.Exp_correct (flat s, E)) as CE.
    assert (WG : Forall2 (fun g o => wellformed (s :: nil) o g) (sf :: nil) ((flat s, E) :: nil)) by (constructor; [exact W|constructor]).
    eapply FuncPrim.correct_weaken; [|apply (FuncCompose.compose_correct (s :: nil) ((flat s, E) :: nil) (flat s, E) s_Exp (sf :: nil) (c_wf _ _ _ _ CE) WG FuncPrim.everywhere (Dd (s :: nil) D) CE)].
    + intros qs d. split; [exact I|exact d].
    + intros k Hk. assert (k = 0%nat) as -> by (cbn in Hk; lia). exact C.
Qed.

Lemma choose_atoms (P : tatom -> sfun -> Prop) ats : (forall a, In a ats -> exists s, P a s) -> exists l, Forall2 P ats l.
Proof.
  induction ats as [|a l IH]; intros H; [exists []; constructor|]. destruct (H a (or_introl eq_refl)) as (s & Hs). destruct IH as (l' & Hl); [intros b Hb; apply H; now right|]. exists (s :: l'). now constructor.
Qed.
Definition zip_atoms (ats : list tatom) (l : list sfun) : list atom := map (fun '(a, s) => mkAtom (ta_w a) (ta_f a) s (ta_o a) (ta_mf a) (ta_dep a) (ta_col a)) (combine ats l).
Lemma zip_map {B} (F : tatom -> B) (G : atom -> B) ats l : length ats = length l -> (forall a s, G (mkAtom (ta_w a) (ta_f a) s (ta_o a) (ta_mf a) (ta_dep a) (ta_col a)) = F a) -> map G (zip_atoms ats l) = map F ats.
Proof. revert l. induction ats as [|a ats IH]; intros [|s l] L H; try discriminate; [reflexivity|]. cbn [zip_atoms combine map]. rewrite H. f_equal. apply IH; auto. Qed.
Lemma zip_forall (P : atom -> Prop) (Q : tatom -> sfun -> Prop) ats l : Forall2 Q ats l -> (forall a s, In a ats -> Q a s -> P (mkAtom (ta_w a) (ta_f a) s (ta_o a) (ta_mf a) (ta_dep a) (ta_col a))) -> Forall P (zip_atoms ats l).
Proof. intros F. induction F as [|a s ats l Hq F IH]; intros H; cbn [zip_atoms combine map]; constructor. - apply H; [now left|exact Hq]. - apply IH. intros a' s' Ha. apply H. now right. Qed.

(** [f] computes what some dense function with right derivatives does *)
Definition densely ss out D mf dep col f : Prop :=
  exists sf, correct ss out (Dd ss D) sf /\ hess_both ss out sf /\ refines ss out (Dd ss D) mf dep col f sf.
Theorem tbuilt_dense ss out D mf dep col f : tbuilt ss out D mf dep col f -> densely ss out D mf dep col f.
Proof.
  induction 1 as [sh P| |a P|ss a P|s E D f O|ss out D D' mf dep col f HD _ (sf & C & B & Rf)|ss out D mf dep col f a b Ha Hb _ (sf & C & B & Rf)
    |ss o D mf dep col w f Hn Hb Hw Ho Hf _ (sf & C & B & Rf)|ss D ats b Pss Ne Hw Bc NJ Dr Mf Hb _ IH|ss o E Df Dg mf dep f g Pss NK Dp O _ (sg & C & B & Rf)].
  - exists s_X. split; [|split; [apply FuncPrim.both_1|]]. + eapply FuncPrim.correct_weaken; [|apply FuncPrim.X_correct]. intros; exact I. + eapply refines_domain; [|now apply X_refines]. intros; exact I.
  - exists s_Scalar. split; [|split; [apply FuncPrim.both_1|]]. + eapply FuncPrim.correct_weaken; [|apply FuncPrim.Scalar_correct]. intros; exact I. + eapply refines_domain; [|now apply Scalar_refines]. intros; exact I.
  - exists (s_Vector (shp a) (el a)). split; [|split; [apply FuncPrim.both_1|]]. + eapply FuncPrim.correct_weaken; [|apply FuncPrim.Vector_correct]. intros; exact I. + eapply refines_domain; [|now apply Vector_refines]. intros; exact I.
  - exists (s_Constant (shp a) (el a)). split; [|split; [apply FuncPrim.Constant_both|]]. + eapply FuncPrim.correct_weaken; [|apply FuncPrim.Constant_correct]. intros; exact I. + eapply refines_domain; [|now apply Constant_refines]. intros; exact I.
  - destruct (outer_dense _ _ _ _ O) as (sf & F & C). exists sf. split; [exact C|]. split; [apply FuncPrim.both_1|]. now apply dform_refines.
  - exists sf. split; [|split; [exact B|]]. + eapply FuncPrim.correct_weaken; [|exact C]. intros qs. now apply Dd_weaken. + eapply refines_domain; [|exact Rf]. intros qs. now apply Dd_weaken.
  - exists (s_affine sf a b). pose proof (c_wf _ _ _ _ C) as W. split; [now apply FuncAffine.affine_correct|]. split; [now apply FuncAffine.affine_both|now apply affine_refines].
  - exists (s_wrap w sf). pose proof (c_wf _ _ _ _ C) as W. assert (OO : FuncWrapP.order_ok ss o w sf) by (right; exact B).
    assert (HD : forall qs, Dd ss (fun ps => D (map (fun k => nth k ps (PNum 0)) (w_pm w))) qs -> Dd (FuncWrapP.ssub ss w) D (FuncWrapP.psub w qs)).
    { intros qs (ps & Pp & d). exists (vsub w ps). split; [now apply prms_sub|exact d]. }
    split; [|split].
    + eapply FuncPrim.correct_weaken; [exact HD|]. apply (FuncWrapP.wrap_correct ss o w sf Hn Hb Hw (Dd (FuncWrapP.ssub ss w) D)); auto.
    + apply FuncWrapP.wrap_both; auto.
    + eapply refines_domain; [exact HD|]. apply wrap_refines; auto.
  - destruct (choose_atoms _ ats IH) as (l & Fl). pose proof (Forall2_length' _ _ _ Fl) as L. set (az := zip_atoms ats l).
    assert (Eo : map a_o az = map ta_o ats) by (apply zip_map; auto).
    assert (Et : map (fun a => (a_w a, a_t a)) az = map (fun a => (ta_w a, ta_f a)) ats) by (apply zip_map; auto).
    assert (Ec : forallb a_col az = forallb ta_col ats).
    { assert (E : map a_col az = map ta_col ats) by (apply zip_map; auto). clear - E. revert E. generalize az. induction ats as [|a ats IH]; intros [|z az0] E; try discriminate; [reflexivity|]. cbn in *. injection E as E1 E2. rewrite E1. f_equal. now apply IH. }
    assert (Em : flat_map a_mf az = flat_map ta_mf ats) by (rewrite !flat_map_concat_map; f_equal; apply zip_map; auto).
    assert (Ed : forall i, existsb (fun a => a_dep a i) az = existsb (fun a => ta_dep a i) ats).
    { intros i. assert (E : map (fun a => a_dep a i) az = map (fun a => ta_dep a i) ats) by (apply zip_map; auto). clear - E. revert E. generalize az. induction ats as [|a ats IH]; intros [|z az0] E; try discriminate; [reflexivity|]. cbn in *. injection E as E1 E2. rewrite E1. f_equal. now apply IH. }
    assert (Ca : Forall (fun a => correct ss (a_o a) (Dd ss D) (a_s a)) az) by (apply (zip_forall _ _ _ _ Fl); intros a s _ Q; apply Q).
    assert (Ba : Forall (fun a => hess_both ss (a_o a) (a_s a)) az) by (apply (zip_forall _ _ _ _ Fl); intros a s _ Q; apply Q).
    assert (Ra : Forall (fun a => refines ss (a_o a) (Dd ss D) (a_mf a) (a_dep a) (a_col a) (a_t a) (a_s a)) az) by (apply (zip_forall _ _ _ _ Fl); intros a s _ Q; apply Q).
    assert (Wa : Forall (fun a => wellformed ss (a_o a) (a_s a)) az) by (eapply Forall_impl; [|exact Ca]; intros a Q; apply Q).
    assert (Ws : Forall2 (fun p o => wellformed ss o (snd p)) (sats az) (map a_o az)) by (now apply wf_sats).
    rewrite <- Eo in Bc, NJ, Dr, Mf |- *. exists (s_sum (sats az) b). split; [|split].
    + apply FuncSum.sum_correct; auto. clear - Ca. unfold sats. induction Ca as [|a az Q Ca IH]; cbn [map]; constructor; auto.
    + apply FuncSum.sum_both; auto. unfold sats. apply Forall_map. apply Forall_forall. intros a Ha. exists (a_o a). split; [now apply in_map|]. exact (proj1 (Forall_forall _ _) Ba a Ha).
    + rewrite <- Et, <- Ec, <- Em.
      assert (R0 : refines ss (join (map a_o az)) (Dd ss D) (smf az) (fun i => existsb (fun a => a_dep a i) az) (forallb a_col az) (t_sum (tats az) b) (s_sum (sats az) b)).
      { apply sum_refines; auto.
        - intros E. apply Ne. destruct ats; [reflexivity|]. destruct l; [discriminate|]. discriminate E.
        - apply (zip_forall _ _ _ _ Fl). intros a s Ha _. cbn [a_w]. exact (proj1 (Forall_forall _ _) Hw a Ha).
        - apply (zip_forall _ _ _ _ Fl). intros a s Ha _. cbn [a_o]. exact (proj1 (Forall_forall _ _) Dr a Ha).
        - apply (zip_forall _ _ _ _ Fl). intros a s Ha _. cbn [a_mf a_o]. exact (proj1 (Forall_forall _ _) Mf a Ha).
        - now rewrite Ec. }
      destruct R0 as [A1 A2 A3 A4 A5 A6 A7 A8 A9]. constructor; auto.
      * intros ps qs i Pp d Hi. rewrite <- Ed. now apply A2.
      * intros N i. rewrite <- Ed. now apply A9.
  - destruct (outer_dense _ _ _ _ O) as (sf & F & Cf). pose proof (c_wf _ _ _ _ Cf) as Wf. pose proof (c_wf _ _ _ _ C) as Wg.
    exists (s_compose sf (sg :: nil)).
    assert (HD : forall qs, Dd ss (fun ps => (forall v, t_call g ps = Ok v -> Df (v :: nil)) /\ Dg ps) qs -> Dd (o :: nil) Df (val (f_call sg qs) :: nil) /\ Dd ss Dg qs).
    { intros qs (ps & Pp & dv & d). assert (d' : Dd ss Dg qs) by (exists ps; auto). split; [|exact d'].
      destruct (comp_arg ss o (Dd ss Dg) mf dep g sg Wg Rf ps qs Pp d') as (v & Ev & P). exists (v :: nil). split; [exact P|]. apply dv. cbn [rmapM] in Ev. destruct (t_call g ps); cbn in Ev; congruence. }
    assert (WG : Forall2 (fun g o => wellformed ss o g) (sg :: nil) (o :: nil)) by (constructor; [exact Wg|constructor]).
    assert (K1 : forall k, (k < length (sg :: nil))%nat -> k = 0%nat) by (cbn; intros; lia).
    split; [|split].
    + eapply FuncPrim.correct_weaken; [exact HD|]. apply (FuncCompose.compose_correct ss (o :: nil) (flat o, E) sf (sg :: nil) Wf WG (Dd (o :: nil) Df) (Dd ss Dg) Cf). intros k Hk. rewrite (K1 k Hk). exact C.
    + apply (FuncCompose.compose_both ss (o :: nil)); auto. * apply Cf. * intros k Hk. rewrite (K1 k Hk). apply C. * intros k Hk. rewrite (K1 k Hk). exact B.
    + eapply refines_domain; [exact HD|]. apply (compose_refines ss o E (Dd (o :: nil) Df) (Dd ss Dg) mf dep f g sf sg); auto.
Qed.

(** *** back to Tensors *)
Lemma is_par_pv s p : is_par s p -> pv s p (parr (vden p)).
Proof.
  intros [(X & Y & N & Dm) H]. destruct p as [c|a|t|g]; cbn [pv vden] in *; [| | |destruct H].
  - cbn in N, Dm. unfold flat. rewrite <- N, <- Dm. split; reflexivity.
  - cbn in N, Dm. split; [congruence|]. split; [congruence|]. intros i Hi. unfold flat in Hi. rewrite <- N, <- Dm, app_nil_r in Hi. unfold parr, get. cbn [xs ys ns ds at_].
    rewrite <- (indices_length _ _ Hi), firstn_all. now rewrite clamp_in.
  - refine (conj H (conj X (conj Y (conj N (conj Dm _))))). intros n d Hn Hd. symmetry. apply (parr_at (den t) s n d); [repeat split; auto|exact Hn|exact Hd].
Qed.
Lemma are_pars_prms ss ps : are_pars ss ps -> prms ss ps (map vden ps).
Proof.
  intros F. split; [exact (Forall2_length' _ _ _ F)|]. split.
  - unfold has_sts. induction F as [|p s ps ss H F IH]; cbn [map]; constructor; auto. apply H.
  - induction F as [|p s ps ss H F IH]; intros [|i] Hi; cbn [length] in Hi; try lia; cbn [map nth]; [now apply is_par_pv|]. apply IH. lia.
Qed.
Lemma are_pars_Dd ss (D : list pval -> Prop) ps : are_pars ss ps -> D ps -> Dd ss D (map vden ps).
Proof. intros H d. exists ps. split; [now apply are_pars_prms|exact d]. Qed.
Lemma curve_dense ss c v t : par_curve ss c v t -> smooth_curve ss (fun s => map vden (c s)) v t.
Proof.
  intros [H1 H2]. split; [intros s; exact (proj1 (proj2 (are_pars_prms ss (c s) (H1 s))))|]. intros i x Hi Hx. eapply is_derive_ext; [|exact (H2 i x Hi Hx)].
  intros s. cbn beta. unfold pentry. pose proof (Forall2_length' _ _ _ (H1 s)) as L. rewrite (nth_indep _ dzero (vden (PNum 0))) by (rewrite map_length; lia). now rewrite map_nth.
Qed.
Lemma vrel_get col out v q n d : has_st q out -> vrel col out v q -> In n (indices (fst out)) -> In d (indices (snd out)) -> get (vden v) [] [] n d = get q [] [] n d.
Proof.
  intros Hq [(_ & _ & Z & E)|(t & -> & P)] Hn Hd.
  - rewrite (zval_get v) by exact Z. rewrite <- (parr_at q out n d Hq Hn Hd). symmetry. apply E. now apply in_indices_app2.
  - destruct P as (_ & _ & _ & _ & _ & P). cbn [vden]. rewrite (P n d Hn Hd). now apply parr_at with (s := out).
Qed.

Theorem densely_correct ss out D mf dep col f : densely ss out D mf dep col f -> t_correct ss out D f.
Proof.
  intros (sf & C & _ & Rf).
  assert (Vg : forall ps i x n d, are_pars ss ps -> D ps -> (i < length ss)%nat -> In x (indices (flat (nth i ss ([], [])))) -> In n (indices (fst out)) -> In d (indices (snd out)) ->
    at_res (t_grad f ps i) x [] n d = get (val (f_grad sf (map vden ps) i)) x [] n d).
  { intros ps i x n d Pp d0 Hi Hx Hn Hd. destruct (rf_grad _ _ _ _ _ _ _ _ Rf ps _ i (are_pars_prms _ _ Pp) (are_pars_Dd _ _ _ Pp d0) Hi) as (v & Ev & V). unfold at_res. rewrite Ev. cbn [res0].
    apply (rep_get _ _ _ v _ x [] n d V). repeat split; auto. now left. }
  assert (Vh : forall ps i j x y n d, are_pars ss ps -> D ps -> (i < length ss)%nat -> (j <= i)%nat -> In x (indices (flat (nth i ss ([], [])))) -> In y (indices (flat (nth j ss ([], [])))) -> In n (indices (fst out)) -> In d (indices (snd out)) ->
    at_res (t_hess f ps i j) x y n d = get (val (f_hess sf (map vden ps) i j)) x y n d).
  { intros ps i j x y n d Pp d0 Hi Hj Hx Hy Hn Hd. destruct (rf_hess _ _ _ _ _ _ _ _ Rf ps _ i j (are_pars_prms _ _ Pp) (are_pars_Dd _ _ _ Pp d0) Hi Hj) as (v & Ev & V). unfold at_res. rewrite Ev. cbn [res0].
    apply (rep_get _ _ _ v _ x y n d V). repeat split; auto. }
  assert (Vc : forall ps n d, are_pars ss ps -> D ps -> In n (indices (fst out)) -> In d (indices (snd out)) -> at_res (t_call f ps) [] [] n d = get (val (f_call sf (map vden ps))) [] [] n d).
  { intros ps n d Pp d0 Hn Hd. destruct (rf_call _ _ _ _ _ _ _ _ Rf ps _ (are_pars_prms _ _ Pp) (are_pars_Dd _ _ _ Pp d0)) as (v & Ev & V). unfold at_res. rewrite Ev. cbn [res0].
    eapply vrel_get; eauto. exact (FuncAffine.call_st (c_wf _ _ _ _ C) _ (proj1 (proj2 (are_pars_prms _ _ Pp)))). }
  assert (Pe : forall G G' v, (forall i x, (i < length ss)%nat -> In x (indices (flat (nth i ss ([], [])))) -> G i x = G' i x) -> pairing ss G v = pairing ss G' v).
  { intros G G' v H. unfold pairing. apply Rsum_ext. intros i Hi. apply in_seq in Hi. apply Rsum_ext. intros x Hx. f_equal. apply H; [lia|exact Hx]. }
  constructor.
  - intros ps Pp d. pose proof (are_pars_prms _ _ Pp) as Q. pose proof (are_pars_Dd _ _ _ Pp d) as Dq. split; [|split].
    + destruct (rf_call _ _ _ _ _ _ _ _ Rf ps _ Q Dq) as (v & Ev & _). now exists v.
    + intros i Hi. destruct (rf_grad _ _ _ _ _ _ _ _ Rf ps _ i Q Dq Hi) as (v & Ev & _). now exists v.
    + intros i j Hi Hj. destruct (rf_hess _ _ _ _ _ _ _ _ Rf ps _ i j Q Dq Hi Hj) as (v & Ev & _). now exists v.
  - intros c v t Hc Ld n d Hn Hd. pose proof (locally_singleton _ _ Ld) as d0. pose proof (proj1 Hc) as Pc.
    rewrite (Pe _ (fun i x => get (val (f_grad sf (map vden (c t)) i)) x [] n d)) by (intros i x Hi Hx; now apply Vg).
    eapply is_derive_ext_loc; [|exact (c_grad _ _ _ _ C _ v t (curve_dense _ _ _ _ Hc) (are_pars_Dd _ _ _ (Pc t) d0) n d Hn Hd)].
    eapply filter_imp; [|exact Ld]. intros s ds. cbn beta. symmetry. now apply Vc.
  - intros c v t Hc Ld i x n d Hi Hx Hn Hd. pose proof (locally_singleton _ _ Ld) as d0. pose proof (proj1 Hc) as Pc.
    rewrite (Pe _ (fun j y => hess_at sf (map vden (c t)) i j x y n d)).
    2:{ intros j y Hj Hy. unfold t_hess_at, hess_at. destruct (Nat.leb_spec j i); apply Vh; auto; lia. }
    eapply is_derive_ext_loc; [|exact (c_hess _ _ _ _ C _ v t (curve_dense _ _ _ _ Hc) (are_pars_Dd _ _ _ (Pc t) d0) i x n d Hi Hx Hn Hd)].
    eapply filter_imp; [|exact Ld]. intros s ds. cbn beta. symmetry. now apply Vg.
  - intros ps i x y n d Pp d0 Hi Hx Hy Hn Hd. rewrite !Vh by auto. pose proof (c_sym _ _ _ _ C (map vden ps) i (proj1 (proj2 (are_pars_prms _ _ Pp))) Hi) as S. exact (S x y n d).
Qed.

Theorem tbuilt_correct ss out D mf dep col f : tbuilt ss out D mf dep col f -> t_correct ss out D f.
Proof. intros T. exact (densely_correct _ _ _ _ _ _ _ (tbuilt_dense _ _ _ _ _ _ _ T)). Qed.

Lemma pairing_unit ss (G : nat -> idx -> R) i x : (i < length ss)%nat -> In x (indices (flat (nth i ss ([], [])))) ->
  pairing ss G (fun j y => if Nat.eqb j i && eqb_idx y x then 1 else 0) = G i x.
Proof.
  intros Hi Hx. unfold pairing. transitivity (Rsum (fun j => if Nat.eqb j i then G i x else 0) (seq 0 (length ss))).
  - apply Rsum_ext. intros j _. destruct (Nat.eqb_spec j i) as [->|Ne]; cbn [andb].
    + transitivity (Rsum (fun y => if eqb_idx y x then G i y else 0) (indices (flat (nth i ss ([], []))))).
      * apply Rsum_ext. intros y _. destruct (eqb_idx y x); ring.
      * rewrite FuncPrim.Rsum_delta; [reflexivity|apply NoDup_indices|exact Hx].
    + apply Rsum_zero. intros y _. ring.
  - assert (H : forall n m, (m <= i < m + n)%nat -> Rsum (fun j => if Nat.eqb j i then G i x else 0) (seq m n) = G i x).
    { induction n as [|n IH]; intros m Hm; [lia|]. cbn [seq]. rewrite Rsum_cons. destruct (Nat.eqb_spec m i) as [->|Ne].
      - rewrite Rsum_zero; [ring|]. intros j Hj. apply in_seq in Hj. destruct (Nat.eqb_spec j i); [lia|reflexivity].
      - rewrite IH by lia. ring. }
    apply H. lia.
Qed.
End ex.

(** the two readings of [tbuilt]: any expression; or only expressions whose Sums
    have atoms with the same dim axes, so that no dim axis is broadcast *)
Definition loose : exdims := false.
Definition full_dims : exdims := true.
Lemma loose_dims (ats : list tatom) : broadcastable (map ta_o ats) -> Forall (fun a => @DR loose (snd (ta_o a)) (snd (join (map ta_o ats)))) ats.
Proof.
  intros B. apply Forall_forall. intros a Ha. unfold DR, loose, is_exact. apply ax_le1. exact (proj2 (proj1 (Forall_forall _ _) B (ta_o a) (in_map ta_o _ _ Ha))).
Qed.
Lemma tb_loose ss out D mf dep col f : @tbuilt full_dims ss out D mf dep col f -> @tbuilt loose ss out D mf dep col f.
Proof.
  induction 1; try (econstructor; eassumption). apply tb_sum; auto. now apply loose_dims.
Qed.
