(** The values of function objects computing with Tensors, entry by entry. *)
From Verif Require Import Prelude DenseModel AnalyticSpec DenseProofs NDArray NDProofs TensorModel TensorSpec TensorSpecOps TensorLemmas TensorBasic TensorSum TensorSumMain TensorBin TensorArith TensorShape TensorExpand TensorGeneric TensorGSum TensorDotCore TensorDot TensorUfunc TensorUfuncP FuncModel FuncSpec FTModel FTSpec FTRep FTRep2 FTRep3 FTVal FTDiag FTRefine FTPrim FTAffine FTWrap FTSum FTCompose FTBuilt.
From Verif Require FuncPrim FuncCompose FuncWrapP FuncLemmas FuncAffine FuncSum.
From Coq Require Import Reals Lra Sorted.
Import List ListNotations.
Open Scope R_scope.
#[local] Existing Instance loose.

Lemma call_at ss out D mf dep col f sf ps n d : wellformed ss out sf -> refines ss out (Dd ss D) mf dep col f sf -> are_pars ss ps -> D ps ->
  In n (indices (fst out)) -> In d (indices (snd out)) -> at_res (t_call f ps) [] [] n d = get (val (f_call sf (map vden ps))) [] [] n d.
Proof.
  intros W Rf Pp d0 Hn Hd. destruct (rf_call _ _ _ _ _ _ _ _ Rf ps _ (are_pars_prms _ _ Pp) (are_pars_Dd _ _ _ Pp d0)) as (v & Ev & V). unfold at_res. rewrite Ev. cbn [res0].
  eapply vrel_get; eauto. exact (FuncAffine.call_st W _ (proj1 (proj2 (are_pars_prms _ _ Pp)))).
Qed.
Lemma sts_of ss ps : are_pars ss ps -> has_sts (map vden ps) ss.
Proof. intros P. exact (proj1 (proj2 (are_pars_prms _ _ P))). Qed.

(** a * f + b *)
Theorem value_affine ss out D mf dep col f a b ps n d : tbuilt ss out D mf dep col f -> a <> 0 -> b = 0 \/ col = false -> are_pars ss ps -> D ps ->
  In n (indices (fst out)) -> In d (indices (snd out)) ->
  at_res (t_call (t_affine f a b) ps) [] [] n d = a * at_res (t_call f ps) [] [] n d + b.
Proof.
  intros T Ha Hb Pp d0 Hn Hd. destruct (tbuilt_dense _ _ _ _ _ _ _ T) as (sf & C & _ & Rf). pose proof (c_wf _ _ _ _ C) as W.
  rewrite (call_at ss out D mf dep col _ (s_affine sf a b) ps n d); auto.
  - rewrite (FuncAffine.affine_call ss out sf a b _ W (sts_of _ _ Pp)). cbn [val]. rewrite (call_at ss out D mf dep col f sf ps n d W Rf Pp d0 Hn Hd). reflexivity.
  - exact (c_wf _ _ _ _ (FuncAffine.affine_correct ss out sf a b _ C)).
  - now apply affine_refines.
Qed.
(** f with renamed parameters, moved features and dim axes, reversed features *)
Theorem value_wrap ss o D mf dep col w f ps n d : NoDup (w_pm w) -> Forall (fun i => i < length ss)%nat (w_pm w) -> FuncLemmas.wmap_ok w o ->
  StronglySorted lt (w_pm w) \/ t_nullh f = true -> flip_fine w ss o mf dep col (t_nullh f) ->
  tbuilt (map (fun k => nth k ss ([], [])) (w_pm w)) o D mf dep col f ->
  are_pars ss ps -> D (map (fun k => nth k ps (PNum 0)) (w_pm w)) ->
  let out := FuncLemmas.w_out w o in
  In n (indices (fst out)) -> In d (indices (snd out)) ->
  at_res (t_call (t_wrap w f) ps) [] [] n d =
  at_res (t_call f (map (fun k => nth k ps (PNum 0)) (w_pm w))) [] [] (pull (w_fm w) (flip_idx (fst out) (w_flip w) n)) (pull (w_dm w) d).
Proof.
  intros Nd Hb Hw Ho Hf T Pp d0 out Hn Hd. destruct (tbuilt_dense _ _ _ _ _ _ _ T) as (sf & C & B & Rf). pose proof (c_wf _ _ _ _ C) as W.
  assert (OO : FuncWrapP.order_ok ss o w sf) by (right; exact B).
  assert (HD : forall qs, Dd ss (fun ps => D (map (fun k => nth k ps (PNum 0)) (w_pm w))) qs -> Dd (FuncWrapP.ssub ss w) D (FuncWrapP.psub w qs)).
  { intros qs (ps' & Pp' & d'). exists (vsub w ps'). split; [now apply prms_sub|exact d']. }
  assert (PS : are_pars (FuncWrapP.ssub ss w) (map (fun k => nth k ps (PNum 0)) (w_pm w))).
  { unfold are_pars, FuncWrapP.ssub. clear - Pp Hb. induction Hb as [|k pm Hk Hb IH]; cbn [map]; constructor; auto. apply (FuncCompose.Forall2_nth _ _ _ k (PNum 0) ([], []) Pp). now rewrite (Forall2_length' _ _ _ Pp). }
  assert (SB : map vden (map (fun k => nth k ps (PNum 0)) (w_pm w)) = FuncWrapP.psub w (map vden ps)).
  { unfold FuncWrapP.psub. rewrite map_map. apply map_ext_in. intros k Hk. pose proof (Forall2_length' _ _ _ Pp) as L. rewrite (nth_indep (map vden ps) dzero (vden (PNum 0))); [now rewrite map_nth|].
    rewrite map_length, L. exact (proj1 (Forall_forall _ _) Hb k Hk). }
  rewrite (call_at ss out (fun ps => D (map (fun k => nth k ps (PNum 0)) (w_pm w))) (wmf w mf) (wdep w dep) (colw col o) _ (s_wrap w sf) ps n d); auto.
  - rewrite (FuncWrapP.wrap_call_ok ss o w sf Hb W _ (sts_of _ _ Pp)). cbn [val].
    pose proof (FuncAffine.call_st W _ (proj1 (proj2 (are_pars_prms _ _ PS)))) as HS. rewrite SB in HS.
    pose proof (FuncLemmas.has_st_tst o _ HS) as (_ & _ & T1 & T2 & _). rewrite (FuncLemmas.w_expand_norm w o _ [] [] n d Hw T1 T2).
    rewrite (call_at (FuncWrapP.ssub ss w) o D mf dep col f sf _ _ (pull (w_dm w) d) W Rf PS d0).
    + rewrite SB. unfold FuncLemmas.wn. unfold out, FuncLemmas.w_out in *. cbn [fst] in *. now rewrite clamp_in.
    + pose proof (FuncLemmas.wn_in w o n Hw Hn) as H. unfold FuncLemmas.wn in H. unfold out, FuncLemmas.w_out in *. cbn [fst] in *. rewrite (clamp_in _ n Hn) in H. exact H.
    + now apply FuncLemmas.wd_in.
  - apply FuncWrapP.wrap_wf; auto.
  - eapply refines_domain; [exact HD|]. apply wrap_refines; auto.
Qed.
Lemma clamp_le_in a b i : ax_le a b -> In i (indices b) -> In (clamp a i) (indices a).
Proof.
  intros H. rewrite !In_indices. revert i. induction H as [|s s' a b Hs H IH]; intros i Hi; inversion Hi as [|k s0 i' b' Hk Hi' E1]; subst; [constructor|]. cbn [clamp]. constructor; [|now apply IH].
  unfold clampi. destruct (Nat.leb_spec s 1), Hs as [-> | [-> _]]; lia.
Qed.
(** the weighted sum, numpy broadcasting included: reading an entry of a value
    ignores the position along its axes of size 1 *)
Theorem value_sum ss D (ats : list tatom) b ps n d : Forall (fun s => posl (flat s)) ss -> ats <> [] -> Forall (fun a => ta_w a <> 0) ats ->
  broadcastable (map ta_o ats) -> flat (join (map ta_o ats)) <> [] ->
  Forall (fun a => forall f, In f (ta_mf a) -> nth f (fst (ta_o a)) 1%nat = nth f (fst (join (map ta_o ats))) 1%nat) ats ->
  b = 0 \/ forallb ta_col ats = false ->
  (forall a, In a ats -> tbuilt ss (ta_o a) D (ta_mf a) (ta_dep a) (ta_col a) (ta_f a)) ->
  are_pars ss ps -> D ps -> In n (indices (fst (join (map ta_o ats)))) -> In d (indices (snd (join (map ta_o ats)))) ->
  at_res (t_call (t_sum (map (fun a => (ta_w a, ta_f a)) ats) b) ps) [] [] n d =
  Rsum (fun a => ta_w a * at_res (t_call (ta_f a) ps) [] [] n d) ats + b.
Proof.
  intros Pss Ne Hw Bc NJ Mf Hb TB Pp d0 Hn Hd.
  assert (IH : forall a, In a ats -> exists sf, correct ss (ta_o a) (Dd ss D) sf /\ hess_both ss (ta_o a) sf /\ refines ss (ta_o a) (Dd ss D) (ta_mf a) (ta_dep a) (ta_col a) (ta_f a) sf) by (intros a Ha; apply tbuilt_dense; now apply TB).
  destruct (choose_atoms _ ats IH) as (l & Fl). pose proof (Forall2_length' _ _ _ Fl) as L. set (az := zip_atoms ats l).
  assert (Eo : map a_o az = map ta_o ats) by (apply zip_map; auto).
  assert (Et : map (fun a => (a_w a, a_t a)) az = map (fun a => (ta_w a, ta_f a)) ats) by (apply zip_map; auto).
  assert (Ec : forallb a_col az = forallb ta_col ats).
  { assert (E : map a_col az = map ta_col ats) by (apply zip_map; auto). clear - E. revert E. generalize az. induction ats as [|a ats IH]; intros [|z az0] E; try discriminate; [reflexivity|]. cbn in *. injection E as E1 E2. rewrite E1. f_equal. now apply IH. }
  assert (Ra : Forall (fun a => refines ss (a_o a) (Dd ss D) (a_mf a) (a_dep a) (a_col a) (a_t a) (a_s a)) az) by (apply (zip_forall _ _ _ _ Fl); intros a s _ Q; apply Q).
  assert (Wa : Forall (fun a => wellformed ss (a_o a) (a_s a)) az) by (apply (zip_forall _ _ _ _ Fl); intros a s _ (C & _); apply C).
  assert (Ws : Forall2 (fun p o => wellformed ss o (snd p)) (sats az) (map a_o az)) by (now apply wf_sats).
  rewrite <- Eo in Bc, NJ, Mf, Hn, Hd. rewrite <- Et. change (map (fun a => (a_w a, a_t a)) az) with (tats az).
  rewrite (call_at ss (join (map a_o az)) D (smf az) (fun i => existsb (fun a => a_dep a i) az) (forallb a_col az) (t_sum (tats az) b) (s_sum (sats az) b) ps n d); auto.
  - rewrite (FuncSum.sum_call ss (sats az) b (map a_o az) Ws Bc _ (sts_of _ _ Pp)). cbn [val].
    change (get (dshift (dsum (FuncSum.terms (sats az) (fun a => f_call a (map vden ps)))) b) [] [] n d) with (get (dsum (FuncSum.terms (sats az) (fun a => f_call a (map vden ps)))) [] [] n d + b).
    f_equal. rewrite FuncSum.get_terms. unfold sats. rewrite Rsum_map. cbn [fst snd].
    assert (EQ : forall a, In a az -> get (val (f_call (a_s a) (map vden ps))) [] [] n d = at_res (t_call (a_t a) ps) [] [] n d).
    { intros a Ha. pose proof (proj1 (Forall_forall _ _) Ra a Ha) as R. pose proof (proj1 (Forall_forall _ _) Wa a Ha) as W.
      destruct (rf_call _ _ _ _ _ _ _ _ R ps _ (are_pars_prms _ _ Pp) (are_pars_Dd _ _ _ Pp d0)) as (v & Ev & V). unfold at_res. rewrite Ev. cbn [res0].
      pose proof (FuncAffine.call_st W _ (sts_of _ _ Pp)) as (S1 & S2 & S3 & S4).
      pose proof (proj1 (Forall_forall _ _) Bc (a_o a) (in_map a_o az a Ha)) as (A1 & A2).
      set (q := val (f_call (a_s a) (map vden ps))) in *.
      assert (Cn : In (clamp (fst (a_o a)) n) (indices (fst (a_o a)))).
      { apply (clamp_le_in _ _ n A1 Hn). }
      assert (Cd : In (clamp (snd (a_o a)) d) (indices (snd (a_o a)))).
      { apply (clamp_le_in _ _ d A2 Hd). }
      rewrite (FuncSum.get_clamp_nd q (a_o a) n d (FuncAffine.call_st W _ (sts_of _ _ Pp))).
      rewrite <- (vrel_get _ _ v q _ _ (FuncAffine.call_st W _ (sts_of _ _ Pp)) V Cn Cd).
      destruct V as [(_ & _ & Z & _)|(t & -> & P)]; [now rewrite !(zval_get v) by exact Z|].
      destruct P as (_ & _ & _ & P3 & P4 & _). cbn [vden]. unfold get. rewrite P3, P4. now rewrite !clamp_idem. }
    transitivity (Rsum (fun a => a_w a * at_res (t_call (a_t a) ps) [] [] n d) az); [apply Rsum_ext; intros a Ha; now rewrite (EQ a Ha)|].
    assert (E : map (fun a => a_w a * at_res (t_call (a_t a) ps) [] [] n d) az = map (fun a => ta_w a * at_res (t_call (ta_f a) ps) [] [] n d) ats) by (apply zip_map; auto).
    unfold Rsum. now rewrite E.
  - apply FuncSum.sum_wf; auto.
  - apply sum_refines; auto.
    + intros E. apply Ne. destruct ats; [reflexivity|]. destruct l; [discriminate|]. discriminate E.
    + apply (zip_forall _ _ _ _ Fl). intros a s Ha _. cbn [a_w]. exact (proj1 (Forall_forall _ _) Hw a Ha).
    + apply Forall_forall. intros a Ha. unfold DR, loose, is_exact. apply ax_le1. exact (proj2 (proj1 (Forall_forall _ _) Bc (a_o a) (in_map a_o _ _ Ha))).
    + apply (zip_forall _ _ _ _ Fl). intros a s Ha _. cbn [a_mf a_o]. exact (proj1 (Forall_forall _ _) Mf a Ha).
    + now rewrite Ec.
Qed.

(** *** primitives *)
Lemma value_dform s E (D : list dt -> Prop) f sf p n d : wellformed (s :: nil) (flat s, E) sf -> dform s E D f sf -> is_par s p -> D [vden p] -> In n (indices (flat s)) -> In d (indices E) ->
  at_res (t_call f [p]) [] [] n d = get (val (f_call sf [vden p])) [] [] n d.
Proof.
  intros W F Hp d0 Hn Hd. assert (Pp : are_pars (s :: nil) [p]) by (constructor; [exact Hp|constructor]).
  destruct (df_call _ _ _ _ _ F [p] [vden p] (are_pars_prms _ _ Pp) d0) as (t & Et & Pt). unfold at_res. rewrite Et. cbn [res0].
  apply (vrel_get false (flat s, E) (PT t)); auto. - exact (FuncAffine.call_st W _ (sts_of _ _ Pp)). - right. exists t. auto.
Qed.
Lemma value_entry kd sh (P : list dt -> Prop) F dF ddF f p n : wellformed ((sh, []) :: nil) (sh, []) (s_entrywise kd false F dF ddF) -> dform (sh, []) [] P f (s_entrywise kd false F dF ddF) ->
  is_par (sh, []) p -> P [vden p] -> In n (indices sh) -> at_res (t_call f [p]) [] [] n [] = F (pentry p n).
Proof.
  intros W Df Hp d0 Hn. assert (Fl : flat (sh, @nil nat) = sh) by (unfold flat; apply app_nil_r).
  assert (W' : wellformed ((sh, []) :: nil) (flat (sh, []), []) (s_entrywise kd false F dF ddF)) by (now rewrite Fl).
  rewrite (value_dform _ _ _ _ _ p n [] W' Df Hp d0); [|now rewrite Fl|now left].
  unfold s_entrywise, prim. cbn [f_call par rnth nth_error rbind val]. rewrite (FuncPrim.get_ufun (sh, []) F (vden p)) by apply Hp.
  unfold pentry. rewrite (FuncCompose.parr_get (vden p) (sh, []) n (proj1 Hp)) by now rewrite Fl. cbn [fst]. now rewrite <- (indices_length _ _ Hn), firstn_all, skipn_all.
Qed.
Theorem value_Exp sh p n : posl sh -> is_par (sh, []) p -> In n (indices sh) -> at_res (t_call t_Exp [p]) [] [] n [] = exp (pentry p n).
Proof. intros P Hp Hn. apply (value_entry true sh anyD exp exp exp t_Exp p n (c_wf _ _ _ _ (FuncPrim.Exp_correct (sh, []))) (Exp_dform sh P)); auto. exact I. Qed.
Theorem value_Log sh p n : posl sh -> is_par (sh, []) p -> (forall x, In x (indices sh) -> 0 < pentry p x) -> In n (indices sh) -> at_res (t_call t_Log [p]) [] [] n [] = ln (pentry p n).
Proof.
  intros P Hp Pos Hn. apply (value_entry true sh (FuncPrim.positive (sh, [])) ln (fun v => 1 / v) (fun v => -1 / (v * v)) t_Log p n (c_wf _ _ _ _ (FuncPrim.Log_correct (sh, []))) (Log_dform sh P)); auto.
  intros x Hx. cbn [nth]. apply Pos. unfold flat in Hx. now rewrite app_nil_r in Hx.
Qed.
Theorem value_Logistic sh p n : posl sh -> is_par (sh, []) p -> In n (indices sh) -> at_res (t_call t_Logistic [p]) [] [] n [] = 1 / (1 + exp (- pentry p n)).
Proof.
  intros P Hp Hn. change (1 / (1 + exp (- pentry p n))) with (expit (pentry p n)). eapply (value_entry false sh anyD expit _ _ t_Logistic p n (c_wf _ _ _ _ (FuncPrim.Logistic_correct sh)) (Logistic_dform sh P)); auto. exact I.
Qed.
Theorem value_ArcTan sh p n : posl sh -> is_par (sh, []) p -> In n (indices sh) -> at_res (t_call t_ArcTan [p]) [] [] n [] = atan (pentry p n).
Proof. intros P Hp Hn. eapply (value_entry false sh anyD atan _ _ t_ArcTan p n (c_wf _ _ _ _ (FuncPrim.ArcTan_correct sh)) (ArcTan_dform sh P)); auto. exact I. Qed.
Lemma value_rows size F dF ddF s p n k : posl (flat s) -> (k < size)%nat -> is_par s p -> In n (indices (flat s)) ->
  at_res (t_call (t_rows size F dF ddF) [p]) [] [] n [k] = F (pentry p n) k.
Proof.
  intros P Hk Hp Hn. assert (Hk' : In [k] (indices [size])) by (apply In_indices; constructor; [exact Hk|constructor]).
  rewrite (value_dform _ _ _ _ _ p n [k] (FuncPrim.rows_wf size F dF ddF s) (rows_dform size F dF ddF s P ltac:(lia)) Hp I Hn Hk').
  unfold s_rows, prim. cbn [f_call par rnth nth_error rbind val]. rewrite (FuncPrim.get_row size s (vden p) F) by apply Hp. rewrite !clamp_in by auto. reflexivity.
Qed.
(** Poisson(size): a^k / k!, without the factor exp(-a) (FuncModel.v) *)
Theorem value_Poisson size s p n k : posl (flat s) -> (k < size)%nat -> is_par s p -> In n (indices (flat s)) ->
  at_res (t_call (t_Poisson size) [p]) [] [] n [k] = pentry p n ^ k / INR (fact k).
Proof. intros P Hk Hp Hn. unfold t_Poisson. rewrite (value_rows size _ _ _ s) by auto. reflexivity. Qed.

(** *** Compose, with an inner function that is not a collapsed Tensor(0) *)
Lemma compose_value ss o D mf dep f g ps : tbuilt ss o D mf dep false g -> are_pars ss ps -> D ps ->
  exists v, t_call g ps = Ok v /\ is_par o v /\ t_call (t_compose f [g]) ps = t_call f [v] /\
    (forall n d, In n (indices (fst o)) -> In d (indices (snd o)) -> pentry v (n ++ d) = at_res (t_call g ps) [] [] n d).
Proof.
  intros T Pp d. destruct (tbuilt_dense _ _ _ _ _ _ _ T) as (sg & C & _ & R). destruct (rf_call _ _ _ _ _ _ _ _ R ps _ (are_pars_prms _ _ Pp) (are_pars_Dd _ _ _ Pp d)) as (v & Ev & [(? & _)|(t & -> & Pt)]); [discriminate|].
  destruct Pt as (W & X & Y & N & Dm & _). assert (Hs : has_st (vden (PT t)) o) by (repeat split; auto).
  exists (PT t). split; [exact Ev|]. split; [split; [exact Hs|exact W]|]. split.
  - cbn [t_compose t_call]. unfold tcompose_call. cbn [rmapM]. rewrite Ev. reflexivity.
  - intros n d' Hn Hd. unfold at_res. rewrite Ev. cbn [res0]. apply (parr_at (vden (PT t)) o n d' Hs Hn Hd).
Qed.
