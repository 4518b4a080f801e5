(** Exp of a function with dim axes, as in the library's
    [NegativeBinomial(n, r) = Exp() @ LogNegativeBinomial(n, r)] (func_proba.py:110-111).
    The derivative of Exp at a parameter with dim axes is a Tensor whose maps point to
    dim axes.  It is a Tensor whose last features are called dim axes ([redim]), and
    the contractions do not look at that. *)
From Verif Require Import Prelude DenseModel AnalyticSpec DenseProofs NDArray NDProofs TensorModel TensorSpec TensorSpecOps TensorLemmas TensorBasic TensorSum TensorSumMain TensorBin TensorArith TensorShape TensorExpand TensorGeneric TensorGSum TensorDotCore TensorDot TensorUfunc TensorUfuncP FuncModel FuncSpec FTModel FTRep FTRep2 FTRep3 FTVal FTDiag FTRefine FTPrim FTAffine FTNest.
From Verif Require FuncPrim FuncCompose FuncWrapP FuncLemmas FuncAffine FuncSum.
From Coq Require Import Reals Lra.
Import List ListNotations.
Open Scope R_scope.

(** the last [e] features become dim axes *)
Definition redim (e : nat) (t : tensor) : tensor := mkT (tv t) (xd t) (yd t) (nn t - e) (dm t + e) (xm t) (ym t).
Lemma Tensor_redim e v x y mx my r : Tensor v x y 0 mx my = Ok r -> (e <= nn r)%nat -> Tensor v x y e mx my = Ok (redim e r).
Proof.
  unfold Tensor. destruct (Nat.ltb_spec (ndim v) (x + y + 0)) as [?|H]; [discriminate|]. intros E. injection E as <-. cbn [nn]. intros L.
  destruct (Nat.ltb_spec (ndim v) (x + y + e)); [lia|]. unfold redim. cbn [tv xd yd nn dm xm ym]. f_equal. f_equal; lia.
Qed.
Lemma undots_nodots l k : count_sl l = length l \/ (forall s, In s l -> s <> Dots) -> undots k l = l ++ repeat Sl k.
Proof.
  intros H. assert (ND : forall s, In s l -> s <> Dots).
  { destruct H as [H|H]; [|exact H]. clear k. induction l as [|s l IH]; [intros ? []|]. assert (CL : forall l, (count_sl l <= length l)%nat) by (induction l0 as [|[]]; cbn; lia).
    destruct s; cbn in H; [|pose proof (CL l); lia|pose proof (CL l); lia]. intros s' [<-|Hs]; [discriminate|]. apply IH; [lia|exact Hs]. }
  clear H. induction l as [|s l IH]; [reflexivity|]. cbn. destruct s; [| |exfalso; now apply (ND Dots (or_introl eq_refl))]; f_equal; apply IH; intros; apply ND; now right.
Qed.
Lemma count_app l l' : count_sl (l ++ l') = (count_sl l + count_sl l')%nat.
Proof. induction l as [|[] l IH]; cbn; lia. Qed.
Lemma count_Sl k : count_sl (repeat Sl k) = k.
Proof. induction k; cbn; lia. Qed.
Lemma count_Nw k : count_sl (repeat Nw k) = 0%nat.
Proof. induction k; cbn; lia. Qed.
(** trailing slices may be left out *)
Lemma index_trailing p a e v : ndim v = (a + e)%nat -> np_index (repeat Nw p ++ repeat Sl a) v = np_index (repeat Nw p ++ repeat Sl (a + e)) v.
Proof.
  intros H. unfold np_index. rewrite !count_app, !count_Sl, !count_Nw, H. cbn [Nat.add].
  destruct (Nat.ltb_spec (a + e) a); [lia|]. destruct (Nat.ltb_spec (a + e) (a + e)); [lia|].
  assert (ND : forall b s, In s (repeat Nw p ++ repeat Sl b) -> s <> Dots) by (intros b s Hs; apply in_app_or in Hs as [Hs|Hs]; apply repeat_spec in Hs; subst; discriminate).
  rewrite !undots_nodots by (right; apply ND). replace (a + e - a)%nat with e by lia. replace (a + e - (a + e))%nat with 0%nat by lia. cbn [repeat]. rewrite app_nil_r, <- app_assoc, <- repeat_app. reflexivity.
Qed.


Lemma swap_ndim a i j b : np_swapaxes a i j = Ok b -> ndim b = ndim a.
Proof. unfold np_swapaxes. destruct (_ && _); [|discriminate]. intros E. injection E as <-. unfold ndim. cbn [shp]. now rewrite ?swapl_length, ?length_swap. Qed.
Lemma swaps_ndim m : forall k a q p b, arr_swapaxes_from k a q p m = Ok b -> ndim b = ndim a.
Proof.
  induction m as [|[f|] m IH]; intros k a q p b H; cbn in H; [now injection H as <-| |now apply IH in H].
  binv H. apply IH in H. rewrite H. now apply swap_ndim in Eb.
Qed.
Lemma redim_dotl e s o r : dm s = 0%nat -> dm o = 0%nat -> (e <= nn s)%nat -> xd s = nn o -> tdot_left s o = Ok r -> (e <= nn r)%nat -> tdot_left (redim e s) o = Ok (redim e r).
Proof.
  intros Ds Do Le En H Lr. unfold tdot_left in *. cbn [redim xd yd]. assert (B : Nat.eqb (xd s) (nn o) = true) by (now apply Nat.eqb_eq). rewrite B in *. clear B. cbn [negb andb] in *. unfold tdot_left_core in *. cbn [redim xd yd nn dm tv xm ym] in *.
  rewrite Ds, Do in *. cbn [Nat.add]. rewrite !Nat.max_0_r in *. rewrite !Nat.sub_diag, !Nat.sub_0_r in *. cbn [repeat app] in *. 
  assert (EL : repeat Sl (xd o + nn o) ++ repeat Nw (yd s + (nn s - e)) ++ repeat Nw e = repeat Sl (xd o + nn o) ++ repeat Nw (yd s + nn s) ++ []).
  { rewrite app_nil_r. f_equal. rewrite <- repeat_app. f_equal. lia. }
  rewrite EL. clear EL. binv H. cbn [rbind]. binv H. cbn [rbind]. binv H. cbn [rbind]. binv H. cbn [rbind]. binv H. cbn [rbind]. binv H. cbn [rbind].
  match type of H with (let '(_, _) := ?q in _) = _ => destruct q as [w mx] end. binv H. cbn [rbind]. now apply Tensor_redim.
Qed.

Lemma redim_dotr e s o r : dm s = 0%nat -> dm o = 0%nat -> (e <= nn s)%nat -> ndim (tv s) = (xd s + nn s)%nat -> tdot_right s o = Ok (PT r) -> (e <= nn r)%nat -> tdot_right (redim e s) o = Ok (PT (redim e r)).
Proof.
  intros Ds Do Le Nd H Lr. unfold tdot_right in *. destruct (is_zero0 (tv o)); [discriminate H|]. cbn [redim xd yd nn dm tv xm ym] in *.
  destruct (negb (Nat.eqb (yd s) 0)); [discriminate H|]. destruct (negb (Nat.eqb (xd s) (nn o))); [discriminate H|].
  rewrite Ds, Do in *. cbn [Nat.add]. rewrite !Nat.max_0_r in *. rewrite !Nat.sub_diag, !Nat.sub_0_r in *. cbn [repeat app] in *. rewrite !app_nil_r in *.
  assert (EL : repeat Sl (xd o + yd o + nn o) ++ repeat Nw (nn s - e) ++ repeat Nw e = repeat Sl (xd o + yd o + nn o) ++ repeat Nw (nn s)).
  { f_equal. rewrite <- repeat_app. f_equal. lia. }
  rewrite EL. clear EL. binv H. cbn [rbind]. binv H. cbn [rbind]. cbn [rbind] in *. match type of H with rbind (np_index _ ?a) _ = _ => assert (Na : ndim a = (xd s + nn s)%nat) by (rewrite (swaps_ndim _ _ _ _ _ _ Eb); exact Nd);
    assert (ER : np_index (repeat Nw (xd o + yd o) ++ repeat Sl (xd s + (nn s - e))) a = np_index (repeat Nw (xd o + yd o) ++ repeat Sl (xd s + nn s)) a)
    by (rewrite (index_trailing _ _ e a) by (rewrite Na; lia); f_equal; f_equal; f_equal; lia) end.
  rewrite ER. cbn [rbind]. binv H. cbn [rbind]. binv H. cbn [rbind]. binv H. cbn [rbind]. binv H. cbn [rbind]. binv H. cbn [rbind]. binv H. cbn [rbind]. binv H. cbn [rbind]. binv H. injection H as <-. rewrite (Tensor_redim e _ _ _ _ _ _ Eb8 Lr). reflexivity.
Qed.
Lemma redim_trans e s r : dm s = 0%nat -> (e <= nn r)%nat -> ttranspose s = Ok r -> ttranspose (redim e s) = Ok (redim e r).
Proof.
  intros Ds Lr H. unfold ttranspose in *. cbn [redim xd yd nn dm tv xm ym]. rewrite Ds in *. binv H. cbn [rbind Nat.add]. now apply Tensor_redim.
Qed.

Section ex.
Context {ex : exdims}.
Lemma dotl_sN (X Y K E : list nat) s o r : posl K -> K <> [] -> xfits (SH K Y K E) s -> xm s = idm (length K) -> xfits (SH X [] K []) o -> tdot_left s o = Ok r -> sN r = K.
Proof.
  intros PK NK Xs Ms Xo H. destruct (yabsent K X o Xo) as (Yo & Mo & Do). destruct (xcontract X [] K Y E s o PK NK Xs Ms Xo) as (CT & CX & CY & NX & EN).
  destruct (tdot_left_ok s o (xf_wf _ _ Xs) (xf_wf _ _ Xo) (xf_feat _ _ Xs) (xf_feat _ _ Xo) CT Yo (or_intror CX)) as (r' & Er & _ & _ & De). rewrite H in Er. injection Er as <-.
  destruct De as (_ & _ & E3 & _). cbn [ddot_left ns den] in E3. rewrite E3. exact (full_sN K Y E s Xs Ms).
Qed.
Lemma dotr_sN (X Y K E : list nat) s o r : posl K -> K <> [] -> xfits (SH K [] K E) s -> xm s = idm (length K) -> xfits (SH X Y K []) o -> is_zero0 (tv o) = false -> tdot_right s o = Ok (PT r) -> sN r = K.
Proof.
  intros PK NK Xs Ms Xo Zo H. destruct (xcontract X Y K [] E s o PK NK Xs Ms Xo) as (CT & CX & CY & NX & EN). destruct (xfits_dims _ _ Xs) as (S1 & S2 & S3 & S4). cbn [SX SY SN SD length] in *.
  destruct (tdot_right_ok s o (xf_wf _ _ Xs) (xf_wf _ _ Xo) (xf_feat _ _ Xs) (xf_feat _ _ Xo) CT S2 Zo CX CY) as (r' & Er & _ & _ & De); [congruence|]. rewrite H in Er. injection Er as <-.
  destruct De as (_ & _ & E3 & _). cbn [ddot_right ns den] in E3. rewrite E3. exact (full_sN K [] E s Xs Ms).
Qed.
Lemma trans_sN S t r : xfits S t -> ttranspose t = Ok r -> sN r = sN t.
Proof.
  intros X H. pose proof (xf_wf _ _ X) as W. assert (TR : transposable t) by (right; right; right; now apply (xfits_ones S)).
  destruct (ttranspose_full t W TR) as (r' & Er & _ & _ & _ & De). rewrite H in Er. injection Er as <-. exact (proj1 (proj2 (proj2 De))).
Qed.
Lemma redim_fits (X Y K E : list nat) r : xfits (SH X Y (K ++ E) []) r -> sN r = K ++ E ->
  Forall (fun f => f < length K)%nat (targets (xm r)) -> Forall (fun f => f < length K)%nat (targets (ym r)) ->
  xfits (SH X Y K E) (redim (length E) r) /\ forall x y n d, at_shape (SH X Y K E) x y n d -> get (den (redim (length E) r)) x y n d = get (den r) x y (n ++ d) [].
Proof.
  intros Xr HN Tx Ty. destruct (xfits_dims _ _ Xr) as (R1 & R2 & R3 & R4). cbn [SX SY SN SD length] in *. rewrite app_length in R3.
  assert (SK : skipn (xd r + yd r) (shp (tv r)) = K ++ E).
  { rewrite <- HN. unfold sN. rewrite firstn_all2; [reflexivity|]. rewrite skipn_length. pose proof (wf_len _ (xf_wf _ _ Xr)). lia. }
  assert (HD : sD r = []) by (apply length_zero_iff_nil; unfold sD; rewrite skipn_length; pose proof (wf_len _ (xf_wf _ _ Xr)); lia).
  assert (N' : sN (redim (length E) r) = K).
  { unfold sN. cbn [redim nn xd yd tv]. rewrite SK. replace (nn r - length E)%nat with (length K) by lia. now rewrite firstn_app, Nat.sub_diag, firstn_all, firstn_O, app_nil_r. }
  assert (D' : sD (redim (length E) r) = E).
  { unfold sD. cbn [redim nn xd yd tv]. replace (xd r + yd r + (nn r - length E))%nat with (length K + (xd r + yd r))%nat by lia. rewrite <- skipn_skipn, SK. now rewrite skipn_app, Nat.sub_diag, skipn_all, skipn_O. }
  assert (EX : xs (den (redim (length E) r)) = X).
  { cbn [den xs]. rewrite N', D'. pose proof (xf_xe _ _ Xr) as Q. cbn [SX den xs] in Q. rewrite HN, HD, app_nil_r in Q. exact Q. }
  assert (EY : ys (den (redim (length E) r)) = Y).
  { cbn [den ys]. rewrite N', D'. pose proof (xf_ye _ _ Xr) as Q. cbn [SY den ys] in Q. rewrite HN, HD, app_nil_r in Q. exact Q. }
  split.
  - destruct (xf_wf _ _ Xr) as [W1 W2 W3 W4]. constructor; cbn [SX SY SN SD]; auto.
    + constructor; cbn [redim tv xd yd nn dm xm ym]; auto.
      * lia.
      * replace (nn r - length E + (dm r + length E))%nat with (nn r + dm r)%nat by lia. exact W3.
      * replace (nn r - length E + (dm r + length E))%nat with (nn r + dm r)%nat by lia. exact W4.
    + split; cbn [redim nn xm ym]; replace (nn r - length E)%nat with (length K) by lia; assumption.
    + exact (xf_map _ _ Xr).
    + rewrite N'. apply le1_same.
    + rewrite D'. apply DR_same.
    + intros f _. now rewrite N'.
  - intros x y n d (I1 & I2 & I3 & I4). cbn [SX SY SN SD] in *. pose proof (xf_xe _ _ Xr) as EX'. pose proof (xf_ye _ _ Xr) as EY'. cbn [SX SY] in *.
    unfold get. rewrite EX, EY, EX', EY'. cbn [den ns ds at_]. rewrite N', D', HN, HD. rewrite !clamp_in by (auto using in_indices_app2). cbn [redim tv xm ym clamp]. now rewrite !app_nil_r.
Qed.
Lemma grad_tensor_redim v ps i m e t : grad_tensor v ps i m 0 = Ok t -> (e <= nn t)%nat -> grad_tensor v ps i m e = Ok (redim e t).
Proof. unfold grad_tensor. intros H L. binv H. cbn [rbind]. binv H. cbn [rbind]. binv H. cbn [rbind]. now apply Tensor_redim. Qed.
Lemma hess_tensor_redim v ps i j m m' e t : hess_tensor v ps i j m m' 0 = Ok t -> (e <= nn t)%nat -> hess_tensor v ps i j m m' e = Ok (redim e t).
Proof. unfold hess_tensor. intros H L. binv H. cbn [rbind]. binv H. cbn [rbind]. binv H. cbn [rbind]. binv H. cbn [rbind]. now apply Tensor_redim. Qed.

Lemma targets_idm_lt a b : (a <= b)%nat -> Forall (fun f => f < b)%nat (targets (idm a)).
Proof. intros L. rewrite targets_idm. apply Forall_forall. intros f Hf. apply in_seq in Hf. lia. Qed.
Lemma kdrop (K Y E : list nat) t : xfits (SH K Y K E) t -> exists r, tdrop t = Ok r /\ xfits (SH K Y (K ++ E) []) r /\ xm r = xm t /\ ym r = ym t /\
  tabeq (SH K Y (K ++ E) []) (get (den r)) (dropT (length K) (get (den t))).
Proof. intros X. destruct (xdrop _ t X) as (r & Er & Xr & Mx & My & _ & V). exists r. unfold dropS in Xr, V. cbn [SX SY SN SD] in Xr, V. auto. Qed.
Lemma kgrad (K E : list nat) s g Fs G : posl (K ++ E) -> K <> [] -> gdiag (K ++ E) [] s Fs -> gdiag K E g G ->
  exists d r, tdrop g = Ok d /\ tdot_left (redim (length E) s) d = Ok r /\ gdiag K E r (fun x y n e => dlT (K ++ E) Fs (dropT (length K) G) x y (n ++ e) []).
Proof.
  intros PK NK (Xs & Ms & Ys & Vs) (Xg & Mg & Yg & Vg). assert (NK' : K ++ E <> []) by (destruct K; [congruence|discriminate]).
  destruct (kdrop K [] E g Xg) as (d & Ed & Xd & Md & Yd & Vd).
  destruct (xdotl K [] (K ++ E) [] s d PK NK' Xs Ms Xd) as (r & Er & Xr & Mr & Yr & Vr). pose proof (dotl_sN K [] (K ++ E) [] s d r PK NK' Xs Ms Xd Er) as HN.
  destruct (xfits_dims _ _ Xs) as (S1 & S2 & S3 & S4). destruct (xfits_dims _ _ Xd) as (D1 & D2 & D3 & D4). destruct (xfits_dims _ _ Xr) as (R1 & R2 & R3 & R4). cbn [SX SY SN SD length] in *. rewrite app_length in *.
  destruct (redim_fits K [] K E r Xr HN) as [Xq Vq]. { rewrite Mr, Md, Mg. now apply targets_idm_lt. } { rewrite Yr, Ys. constructor. }
  exists d, (redim (length E) r). split; [exact Ed|]. split; [apply redim_dotl; auto; lia|]. split; [exact Xq|]. split; [cbn [redim xm]; congruence|]. split; [cbn [redim ym]; congruence|].
  intros x y n e Hi. rewrite (Vq x y n e Hi). destruct Hi as (I1 & I2 & I3 & I4). cbn [SX SY SN SD] in *. pose proof (in_indices_app2 K E n e I3 I4) as I5.
  rewrite Vr by (repeat split; cbn; auto). unfold dlT. apply Rsum_ext. intros k Hk. rewrite (Vs k y (n ++ e) []) by (repeat split; cbn; auto). f_equal.
  assert (A : at_shape (SH K [] (K ++ E) []) x [] k []) by (repeat split; cbn; auto). rewrite (Vd _ _ _ _ A). unfold dropT. apply Vg.
  pose proof (at_drop (SH K [] K E) x [] k []) as Q. unfold dropS in Q. cbn [SX SY SN SD] in Q. now apply Q.
Qed.
Lemma kquad (K E : list nat) h g H G : posl (K ++ E) -> K <> [] -> hdiag (K ++ E) [] h H -> gdiag K E g G ->
  exists d q, tdrop g = Ok d /\ pquad (PT (redim (length E) h)) (PT d) (PT d) = Ok (PT q) /\ hdiag K E q (fun x y n e => qT (K ++ E) H (dropT (length K) G) (dropT (length K) G) x y (n ++ e) []).
Proof.
  intros PK NK (Xh & Mh & Nh & Vh) (Xg & Mg & Yg & Vg). assert (NK' : K ++ E <> []) by (destruct K; [congruence|discriminate]).
  destruct (kdrop K [] E g Xg) as (d & Ed & Xd & Md & Yd & Vd).
  destruct (xdotl K (K ++ E) (K ++ E) [] h d PK NK' Xh Mh Xd) as (w1 & E1 & X1 & M1 & Y1 & V1).
  destruct (xtrans _ w1 X1) as (w2 & E2 & X2 & M2 & Y2 & _ & V2). unfold transS in X2, V2. cbn [SX SY SN SD] in X2, V2.
  destruct (xdotl K K (K ++ E) [] w2 d PK NK' X2 ltac:(congruence) Xd) as (w3 & E3 & X3 & M3 & Y3 & V3).
  pose proof (dotl_sN K K (K ++ E) [] w2 d w3 PK NK' X2 ltac:(congruence) Xd E3) as HN.
  destruct (xtrans _ w3 X3) as (q & E4 & X4 & M4 & Y4 & _ & V4). pose proof (trans_sN _ w3 q X3 E4) as HQ. rewrite HN in HQ. unfold transS in X4, V4. cbn [SX SY SN SD] in X4, V4.
  destruct (xfits_dims _ _ Xh) as (S1 & S2 & S3 & S4). destruct (xfits_dims _ _ Xd) as (D1 & D2 & D3 & D4). destruct (xfits_dims _ _ X1) as (A1 & A2 & A3 & A4). destruct (xfits_dims _ _ X2) as (B1 & B2 & B3 & B4). destruct (xfits_dims _ _ X3) as (C1 & C2 & C3 & C4). destruct (xfits_dims _ _ X4) as (Q1 & Q2 & Q3 & Q4). cbn [SX SY SN SD length] in *. rewrite app_length in *.
  destruct (redim_fits K K K E q X4 HQ) as [Xq Vq]. { rewrite M4, Y3, Y2, M1, Md, Mg. now apply targets_idm_lt. } { rewrite Y4, M3, Md, Mg. now apply targets_idm_lt. }
  exists d, (redim (length E) q). split; [exact Ed|]. split.
  { unfold pquad. cbn [pdot_left tdot_left_any]. rewrite (redim_dotl (length E) h d w1) by (auto; lia). cbn [rbind rmap ptranspose]. rewrite (redim_trans (length E) w1 w2) by (auto; lia). cbn [rbind rmap pdot_left tdot_left_any].
    rewrite (redim_dotl (length E) w2 d w3) by (auto; lia). cbn [rbind rmap ptranspose]. rewrite (redim_trans (length E) w3 q) by (auto; lia). reflexivity. }
  split; [exact Xq|]. split; [cbn [redim xm]; congruence|]. split; [cbn [redim ym]; congruence|].
  assert (Gd : forall x k, In x (indices K) -> In k (indices (K ++ E)) -> get (den d) x [] k [] = dropT (length K) G x [] k []).
  { intros x k Hx Hk. assert (A : at_shape (SH K [] (K ++ E) []) x [] k []) by (repeat split; cbn; auto). rewrite (Vd _ _ _ _ A). unfold dropT. apply Vg.
    pose proof (at_drop (SH K [] K E) x [] k []) as Q. unfold dropS in Q. cbn [SX SY SN SD] in Q. now apply Q. }
  intros x y n e Hi. rewrite (Vq x y n e Hi). destruct Hi as (I1 & I2 & I3 & I4). cbn [SX SY SN SD] in *. pose proof (in_indices_app2 K E n e I3 I4) as I5.
  rewrite V4 by (repeat split; cbn; auto). unfold qT, transT. rewrite V3 by (repeat split; cbn; auto). unfold dlT. apply Rsum_ext. intros k Hk. rewrite (Gd y k I2 Hk). f_equal.
  rewrite V2 by (repeat split; cbn; auto). unfold transT. rewrite V1 by (repeat split; cbn; auto). unfold dlT. apply Rsum_ext. intros k' Hk'. rewrite (Gd x k' I1 Hk'). f_equal. apply Vh. repeat split; cbn; auto.
Qed.
Lemma kright (K E : list nat) s h Fs H : posl (K ++ E) -> K <> [] -> gdiag (K ++ E) [] s Fs -> hdiag K E h H ->
  exists d r, tdrop h = Ok d /\ tdot_right (redim (length E) s) d = Ok (PT r) /\ hdiag K E r (fun x y n e => drT (K ++ E) Fs (dropT (length K) H) x y (n ++ e) []).
Proof.
  intros PK NK (Xs & Ms & Ys & Vs) (Xh & Mh & Nh & Vh). assert (NK' : K ++ E <> []) by (destruct K; [congruence|discriminate]).
  destruct (kdrop K K E h Xh) as (d & Ed & Xd & Md & Yd & Vd).
  assert (Z : is_zero0 (tv d) = false) by (apply rank_not_zero; apply (xfits_rank _ _ Xd); now apply nonsc).
  destruct (xdotr K K (K ++ E) [] s d PK NK' Xs Ms Xd Z) as (r & Er & Xr & Mr & Yr & Vr). pose proof (dotr_sN K K (K ++ E) [] s d r PK NK' Xs Ms Xd Z Er) as HN.
  destruct (xfits_dims _ _ Xs) as (S1 & S2 & S3 & S4). destruct (xfits_dims _ _ Xd) as (D1 & D2 & D3 & D4). destruct (xfits_dims _ _ Xr) as (R1 & R2 & R3 & R4). cbn [SX SY SN SD length] in *. rewrite app_length in *.
  destruct (redim_fits K K K E r Xr HN) as [Xq Vq]. { rewrite Mr, Md, Mh. now apply targets_idm_lt. } { rewrite Yr, Yd, Nh. now apply targets_idm_lt. }
  assert (Nd : ndim (tv s) = (xd s + nn s)%nat) by (unfold ndim; rewrite (wf_len _ (xf_wf _ _ Xs)); lia).
  exists d, (redim (length E) r). split; [exact Ed|]. split; [apply redim_dotr; auto; lia|]. split; [exact Xq|]. split; [cbn [redim xm]; congruence|]. split; [cbn [redim ym]; congruence|].
  intros x y n e Hi. rewrite (Vq x y n e Hi). destruct Hi as (I1 & I2 & I3 & I4). cbn [SX SY SN SD] in *. pose proof (in_indices_app2 K E n e I3 I4) as I5.
  rewrite Vr by (repeat split; cbn; auto). unfold drT. apply Rsum_ext. intros k Hk. rewrite (Vs k [] (n ++ e) []) by (repeat split; cbn; auto). f_equal.
  assert (A : at_shape (SH K K (K ++ E) []) x y k []) by (repeat split; cbn; auto). rewrite (Vd _ _ _ _ A). unfold dropT. apply Vh.
  pose proof (at_drop (SH K K K E) x y k []) as Q. unfold dropS in Q. cbn [SX SY SN SD] in Q. now apply Q.
Qed.

(** Exp at a parameter with dim axes *)
Lemma exp_value s p h : posl (flat s) -> pv s p h -> exists f, exp_tensor [p] = Ok f /\ dm f = length (snd s) /\ pv s (PT f) (fun i => exp (h i)).
Proof.
  intros Ps Hp. destruct (pv_map s p h exp Hp) as (p' & E1 & P1 & _). destruct (pv_tensor s p' _ Ps P1) as (f & E2 & P2 & Df). exists f.
  unfold exp_tensor, rnth. cbn [nth_error rbind]. rewrite E1. cbn [rbind]. auto.
Qed.
Lemma exp_keep_call s p q : posl (flat s) -> has_st q s -> pv s p (parr q) -> exists t, t_call t_Exp [p] = Ok (PT t) /\ pv s (PT t) (parr (val (f_call s_Exp [q]))).
Proof.
  intros Ps Hq Pv. destruct (exp_value s p (parr q) Ps Pv) as (f & Ef & _ & Pf). exists f. cbn [t_Exp t_call]. rewrite Ef. split; [reflexivity|].
  eapply pv_ext; [|exact Pf]. intros i Hi. unfold s_Exp, s_entrywise, prim. cbn [f_call par rnth nth_error rbind val]. rewrite (FuncCompose.parr_get (ufun exp q) s i); [|destruct Hq as (? & ? & ? & ?); repeat split; assumption|exact Hi].
  rewrite (FuncPrim.get_ufun s exp q) by exact Hq. now rewrite <- (FuncCompose.parr_get q s i Hq Hi).
Qed.
Lemma flat_flat s : flat (flat s, @nil nat) = flat s.
Proof. apply app_nil_r. Qed.
Lemma exp_keep_grad s p q : posl (flat s) -> has_st q s -> pv s p (parr q) -> exists t, t_grad t_Exp [p] 0 = Ok (PT (redim (length (snd s)) t)) /\
  gdiag (flat s) [] t (fun x y n d => get (val (f_grad s_Exp [q] 0)) x [] (firstn (length (fst s)) n) (skipn (length (fst s)) n)).
Proof.
  intros Ps Hq Pv. destruct (exp_value s p (parr q) Ps Pv) as (f & Ef & Df & Pf). destruct (pv_asarray _ _ _ Pf) as (a & Ea & Sa & Va).
  destruct (grad_tensor_diag s p (parr q) (PT f) a [] (fun i => exp (parr q i)) Pv) as (t & Eg & X & Mx & My & _ & V); rewrite ?app_nil_r; auto; [constructor|]. cbn [length] in Eg.
  destruct (xfits_dims _ _ X) as (_ & _ & R3 & _). cbn [SN] in R3. exists t. cbn [t_Exp t_grad]. rewrite Ef. cbn [rbind]. rewrite Df, (grad_tensor_redim _ _ _ _ _ _ Eg) by (rewrite R3; unfold flat; rewrite app_length; lia). split; [reflexivity|].
  split; [exact X|]. split; [exact Mx|]. split; [exact My|]. intros x y n d (I1 & I2 & I3 & I4). cbn [SX SY SN SD] in *. destruct I2 as [<-|[]]. rewrite (V x n d I1 I3 I4). destruct I4 as [<-|[]]. rewrite app_nil_r.
  unfold s_Exp, s_entrywise, prim. cbn [f_grad par rnth nth_error rbind val]. rewrite (FuncPrim.get_diag_grad true s (or_introl eq_refl)) by exact Hq.
  unfold flat in I3. apply in_indices_app in I3 as [I3 I5]. rewrite !clamp_in by auto. now rewrite firstn_skipn.
Qed.
Lemma exp_keep_hess s p q : posl (flat s) -> has_st q s -> pv s p (parr q) -> exists t, t_hess t_Exp [p] 0 0 = Ok (PT (redim (length (snd s)) t)) /\
  hdiag (flat s) [] t (fun x y n d => get (val (f_hess s_Exp [q] 0 0)) x y (firstn (length (fst s)) n) (skipn (length (fst s)) n)).
Proof.
  intros Ps Hq Pv. destruct (exp_value s p (parr q) Ps Pv) as (f & Ef & Df & Pf). destruct (pv_asarray _ _ _ Pf) as (a & Ea & Sa & Va).
  destruct (hess_tensor_diag s p (parr q) (PT f) a [] (fun i => exp (parr q i)) Pv) as (t & Eg & X & Mx & My & V); rewrite ?app_nil_r; auto; [constructor|]. cbn [length] in Eg.
  destruct (xfits_dims _ _ X) as (_ & _ & R3 & _). cbn [SN] in R3. exists t. cbn [t_Exp t_hess]. rewrite Ef. cbn [rbind]. rewrite Df, (hess_tensor_redim _ _ _ _ _ _ _ _ Eg) by (rewrite R3; unfold flat; rewrite app_length; lia). split; [reflexivity|].
  split; [exact X|]. split; [exact Mx|]. split; [exact My|]. intros x y n d (I1 & I2 & I3 & I4). cbn [SX SY SN SD] in *. rewrite (V x y n d I1 I2 I3 I4). destruct I4 as [<-|[]]. rewrite app_nil_r.
  unfold s_Exp, s_entrywise, prim. cbn [f_hess par rnth nth_error rbind val]. rewrite (FuncPrim.get_diag_hess true s (or_introl eq_refl)) by exact Hq.
  unfold flat in I3. apply in_indices_app in I3 as [I3 I5]. rewrite !clamp_in by auto. now rewrite firstn_skipn.
Qed.

Section Keep.
Context (s : pst) (E : list nat) (D2 : list dt -> Prop) (f2 : tfun) (sf2 : sfun).
Notation K := (flat s).
Hypothesis NK : K <> [].
Hypothesis W2 : wellformed (s :: nil) (K, E) sf2.
Hypothesis F2 : dform s E D2 f2 sf2.
Lemma WE : wellformed ((K, E) :: nil) (K, E) s_Exp.
Proof. exact (c_wf _ _ _ _ (FuncPrim.Exp_correct (K, E))). Qed.
Lemma WK2 : Forall2 (fun g o => wellformed (s :: nil) o g) (sf2 :: nil) ((K, E) :: nil).
Proof. constructor; [exact W2|constructor]. Qed.
Lemma keep_st ps qs : prms (s :: nil) ps qs -> has_st (val (f_call sf2 qs)) (K, E).
Proof. intros Pp. exact (FuncAffine.call_st W2 qs (proj1 (proj2 Pp))). Qed.
Definition egt (q : dt) : table := fun x y n d => get (val (f_grad s_Exp [q] 0)) x [] (firstn (length K) n) (skipn (length K) n).
Definition eht (q : dt) : table := fun x y n d => get (val (f_hess s_Exp [q] 0 0)) x y (firstn (length K) n) (skipn (length K) n).
Lemma cut n e : In n (indices K) -> firstn (length K) (n ++ e) = n /\ skipn (length K) (n ++ e) = e.
Proof. intros I. rewrite <- (indices_length _ _ I). split; [now rewrite firstn_app, Nat.sub_diag, firstn_all, firstn_O, app_nil_r|now rewrite skipn_app, Nat.sub_diag, skipn_all, skipn_O]. Qed.
Lemma keep_gtab ps qs : prms (s :: nil) ps qs ->
  tabeq (SH K [] K E) (fun x y n e => dlT (K ++ E) (egt (val (f_call sf2 qs))) (dropT (length K) (get (val (f_grad sf2 qs 0)))) x y (n ++ e) []) (get (val (f_grad (s_compose s_Exp [sf2]) qs 0))).
Proof.
  intros Pp. destruct (FuncCompose.compose_grad_ok (s :: nil) ((K, E) :: nil) (K, E) s_Exp [sf2] WE WK2 qs 0 (proj1 (proj2 Pp)) ltac:(cbn; lia)) as (g' & Eg & _ & Vg). rewrite Eg. cbn [val].
  intros x y n e (I1 & I2 & I3 & I4). cbn [SX SY SN SD] in *. destruct I2 as [<-|[]]. rewrite Vg. unfold FuncCompose.CG. cbn [length seq]. rewrite Rsum_cons, Rsum_nil, Rplus_0_r. cbn [nth].
  unfold dlT. apply Rsum_ext. intros k Hk. f_equal. unfold egt. destruct (cut n e I3) as [-> ->]. reflexivity.
Qed.
Lemma keep_htab ps qs : prms (s :: nil) ps qs ->
  tabeq (SH K K K E) (fun x y n e => qT (K ++ E) (eht (val (f_call sf2 qs))) (dropT (length K) (get (val (f_grad sf2 qs 0)))) (dropT (length K) (get (val (f_grad sf2 qs 0)))) x y (n ++ e) [] +
    drT (K ++ E) (egt (val (f_call sf2 qs))) (dropT (length K) (get (val (f_hess sf2 qs 0 0)))) x y (n ++ e) []) (get (val (f_hess (s_compose s_Exp [sf2]) qs 0 0))).
Proof.
  intros Pp. destruct (FuncCompose.compose_hess_ok (s :: nil) ((K, E) :: nil) (K, E) s_Exp [sf2] WE WK2 qs 0 0 (proj1 (proj2 Pp)) ltac:(cbn; lia) (le_n 0)) as (g' & Eg & _ & Vg). rewrite Eg. cbn [val].
  intros x y n e (I1 & I2 & I3 & I4). cbn [SX SY SN SD] in *. rewrite Vg. unfold FuncCompose.CH. cbn [length seq]. rewrite !Rsum_cons, !Rsum_nil, !Rplus_0_r. cbn [nth].
  f_equal.
  - unfold qT, transT, dlT. apply Rsum_ext. intros k Hk. f_equal. apply Rsum_ext. intros k' Hk'. f_equal. unfold eht. destruct (cut n e I3) as [-> ->]. reflexivity.
  - unfold drT. apply Rsum_ext. intros k Hk. f_equal. unfold egt. destruct (cut n e I3) as [-> ->]. reflexivity.
Qed.
Lemma keep_all ps qs : prms (s :: nil) ps qs -> D2 qs -> posl (K ++ E) /\ exists v t, t_call f2 ps = Ok (PT v) /\ t_call t_Exp [PT v] = Ok (PT t) /\ pv (K, E) (PT t) (parr (val (f_call (s_compose s_Exp [sf2]) qs))).
Proof.
  intros Pp d. destruct F2 as [B1 B2 B3 _ _ PK PE]. assert (PKE : posl (K ++ E)) by (apply Forall_app; auto). split; [exact PKE|]. destruct (B1 ps qs Pp d) as (v & Ev & Pv). destruct (exp_keep_call (K, E) (PT v) _ PKE (keep_st ps qs Pp) Pv) as (t & Et & Pt).
  exists v, t. split; [exact Ev|]. split; [exact Et|]. rewrite (FuncCompose.compose_call_ok (s :: nil) ((K, E) :: nil) (K, E) s_Exp [sf2] WE WK2 qs (proj1 (proj2 Pp))). exact Pt.
Qed.
Theorem keep_dform : dform s E D2 (t_compose t_Exp [f2]) (s_compose s_Exp [sf2]).
Proof.
  destruct F2 as [B1 B2 B3 _ _ PK PE]. constructor; auto.
  - intros ps qs Pp d. destruct (keep_all ps qs Pp d) as (_ & v & t & Ev & Et & Pt). exists t. cbn [t_compose t_call]. unfold tcompose_call. cbn [rmapM]. rewrite Ev. cbn [rbind]. auto.
  - intros ps qs Pp d. destruct (keep_all ps qs Pp d) as (PKE & _). destruct (B1 ps qs Pp d) as (v & Ev & Pv). destruct (exp_keep_grad (K, E) (PT v) _ PKE (keep_st ps qs Pp) Pv) as (t & Et & Gt). destruct (B2 ps qs Pp d) as (g & Eg & Gg).
    destruct (kgrad K E t g _ _ PKE NK Gt Gg) as (dd & r & Ed & Er & Xr & Mr & Yr & Vr). exists r. change (length (snd (K, E))) with (length E) in Et. cbn [t_compose t_grad]. change (t_nullg t_Exp) with false. cbn iota. unfold tcompose_grad. cbn [rmapM]. rewrite Ev. cbn [rbind enum length seq combine rmapM]. rewrite Et. cbn [rbind]. rewrite Eg. cbn [rbind pdrop]. rewrite Ed. cbn [rmap rbind pdot_left tdot_left_any]. rewrite Er. cbn [rmap rbind]. unfold pysum. cbn [ofold].
    split. { unfold py. cbn [direct reflected]. unfold tbin. cbn [tbin1]. rewrite tadd_num0. reflexivity. }
    split; [exact Xr|]. split; [exact Mr|]. split; [exact Yr|]. intros x y n e Hi. rewrite (Vr x y n e Hi). now apply (keep_gtab ps qs Pp).
  - intros ps qs Pp d. destruct (keep_all ps qs Pp d) as (PKE & _). destruct (B1 ps qs Pp d) as (v & Ev & Pv). destruct (exp_keep_grad (K, E) (PT v) _ PKE (keep_st ps qs Pp) Pv) as (t & Et & Gt). destruct (exp_keep_hess (K, E) (PT v) _ PKE (keep_st ps qs Pp) Pv) as (h & Eh & Hh). destruct (B2 ps qs Pp d) as (g & Eg & Gg). destruct (B3 ps qs Pp d) as (hg & Ehg & Hg).
    change (length (snd (K, E))) with (length E) in Et, Eh.
    destruct (kquad K E h g _ _ PKE NK Hh Gg) as (dd & q & Ed & Eq & Xq & Mq & Yq & Vq). destruct (kright K E t hg _ _ PKE NK Gt Hg) as (hd & r & Ehd & Er & Xr & Mr & Yr & Vr).
    assert (SP : spos (SH K K K E)) by (repeat split; assumption). pose proof (nonsc K K K E NK) as NS.
    destruct (nadd0 _ q NS Xq) as (q1 & Eq1 & Xq1 & Mq1 & Yq1 & Vq1). destruct (nadd _ q1 r SP NS Xq1 Xr) as (w & Ew & Xw & Mw & Yw & Vw); [congruence|congruence|].
    exists w. cbn [t_compose t_hess]. change (t_nullg t_Exp) with false. change (t_nullh t_Exp) with false. unfold tcompose_hess. cbn [rmapM]. rewrite Ev. cbn [rbind rmapM]. rewrite Eg. cbn [rbind pdrop]. rewrite Ed. cbn [rmap rbind Nat.eqb enum length seq combine ofold Nat.ltb Nat.leb]. rewrite Eh. cbn [rbind]. unfold rnth. cbn [nth_error rbind]. rewrite Eq. cbn [rbind]. rewrite Eq1. cbn [rbind]. rewrite Et. cbn [rbind]. rewrite Ehg. cbn [rbind pdrop]. rewrite Ehd. cbn [rmap rbind pdot_right tdot_right_any]. rewrite Er. cbn [rbind]. rewrite Ew. cbn [rbind].
    split; [reflexivity|]. split; [exact Xw|]. split; [congruence|]. split; [congruence|]. intros x y n e Hi. rewrite (Vw x y n e Hi), (Vq1 x y n e Hi), (Vq x y n e Hi), (Vr x y n e Hi).
    now apply (keep_htab ps qs Pp).
Qed.
End Keep.
End ex.
