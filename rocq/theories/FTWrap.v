(** FuncWrap at the tensor level refines the dense one. *)
From Verif Require Import Prelude DenseModel AnalyticSpec DenseProofs NDArray NDProofs TensorModel TensorSpec TensorSpecOps TensorLemmas TensorBasic TensorSum TensorSumMain TensorBin TensorArith TensorShape TensorExpand TensorGeneric TensorGSum TensorDotCore TensorDot TensorUfunc TensorUfuncP FuncModel FuncSpec FTModel FTRep FTRep2 FTRep3 FTVal FTDiag FTRefine FTPrim FTAffine.
From Verif Require FuncPrim FuncCompose FuncWrapP FuncLemmas FuncAffine.
From Coq Require Import Reals Lra Sorted.
Import List ListNotations.
Open Scope R_scope.
Section ex.
Context {ex : exdims}.

(** *** reversal of feature axes *)
Definition flipT (sh fl : list nat) (F : table) : table := fun x y n d => F x y (flip_idx sh fl n) d.
Definition avoidQ (fl : list nat) (Q : mcond) : Prop := forall a b, Q a b -> forall k, In k fl -> ~ In k (targets a) /\ ~ In k (targets b).

Lemma flip_clamp a S fl n : le1 a S -> posl a -> In n (indices S) -> clamp a (flip_idx S fl n) = flip_idx a fl (clamp a n).
Proof.
  intros L P Hn. pose proof (le1_len _ _ L) as Ln. pose proof (indices_length _ _ Hn) as Nn.
  assert (Ca : In (clamp a n) (indices a)) by (apply (below_in a S); auto; now apply le1_below).
  assert (Lc : length (clamp a n) = length a) by (rewrite clamp_length; lia).
  assert (Lf : length (flip_idx a fl (clamp a n)) = length a) by (now rewrite FuncLemmas.flip_idx_length).
  apply (nth_ext _ _ 0%nat 0%nat); [rewrite Lf, clamp_length, FuncLemmas.flip_idx_length; lia|]. intros j Hj. rewrite clamp_length, FuncLemmas.flip_idx_length in Hj.
  assert (Ha : (j < length a)%nat) by lia. rewrite FuncLemmas.nth_clamp by exact Ha.
  pose proof (FuncLemmas.flip_in a fl _ Ca) as H. apply In_indices in H.
  assert (G : (nth j (flip_idx a fl (clamp a n)) 0 < nth j a 1)%nat) by (exact (FuncCompose.Forall2_nth _ _ _ j 0%nat 1%nat H ltac:(rewrite Lf; exact Ha))).
  unfold clampi. destruct (Nat.leb_spec (nth j a 1%nat) 1); [lia|].
  destruct (nth_le1 a S j L Ha) as [E|E]; [lia|]. apply FuncLemmas.nth_flip_idx; [lia|now symmetry|].
  rewrite FuncLemmas.nth_clamp by exact Ha. unfold clampi. destruct (Nat.leb_spec (nth j a 1%nat) 1); [lia|reflexivity].
Qed.
Lemma xflip S t fl : xfits S t -> Forall (fun k => k < length (SN S))%nat fl -> (forall k, In k fl -> ~ In k (targets (xm t)) /\ ~ In k (targets (ym t))) ->
  exists r, tflip t fl false = Ok r /\ xfits S r /\ xm r = xm t /\ ym r = ym t /\ tabeq S (get (den r)) (flipT (SN S) fl (get (den t))).
Proof.
  intros X B A. pose proof (xf_wf _ _ X) as W. destruct (xfits_dims S t X) as (D1 & D2 & D3 & D4).
  destruct fl as [|k0 fl0]; [exists t; split; [reflexivity|]; split; [exact X|]; split; [reflexivity|]; split; [reflexivity|]; intros x y n d _; reflexivity|].
  assert (B' : Forall (fun k => k < nn t)%nat (k0 :: fl0)) by (now rewrite D3).
  destruct (tflip_ok t (k0 :: fl0) W (xf_feat _ _ X) B' A) as (r & Er & Wr & Tr & De). exists r. split; [exact Er|].
  assert (I : xm r = xm t /\ ym r = ym t /\ xd r = xd t /\ yd r = yd t).
  { unfold tflip in Er. match type of Er with (if ?c then _ else _) = _ => destruct c; [discriminate|] end. match type of Er with rbind ?e _ = _ => destruct e; [|discriminate] end. cbn [rbind] in Er. apply Tensor_inv in Er. tauto. }
  destruct I as (Mx & My & Rx & Ry). pose proof De as (E1 & E2 & E3 & E4 & _). cbn [dflip xs ys ns ds den] in E1, E2, E3, E4.
  assert (Xr : xfits S r).
  { destruct X as [_ T M X1 X2 X3 X4 X5]. constructor; auto.
    - unfold tmapped. rewrite Mx, My, Rx, Ry. exact M.
    - cbn [den xs]. rewrite E1. exact X1.
    - cbn [den ys]. rewrite E2. exact X2.
    - now rewrite E3.
    - now rewrite E4.
    - intros f Hf. rewrite Mx, My in Hf. rewrite E3. now apply X5. }
  split; [exact Xr|]. split; [exact Mx|]. split; [exact My|]. intros x y n d Hi.
  rewrite (dsame_at S _ _ x y n d De (wf_dpos r Wr) (xfits_dbelow _ _ Xr) Hi). unfold flipT, get. cbn [dflip xs ys ns ds at_].
  destruct Hi as (_ & _ & Hn & _). cbn [den ns]. rewrite <- (flip_clamp (sN t) (SN S) (k0 :: fl0) n (xf_n _ _ X)); auto. apply (wf_dpos t W).
Qed.
Theorem rflip nz (Q : mcond) S v F fl : Forall (fun k => k < length (SN S))%nat fl -> avoidQ fl Q -> fl = [] \/ nz = true ->
  rep nz Q S v F -> exists u, pflip v fl = Ok u /\ rep nz Q S u (flipT (SN S) fl F).
Proof.
  intros B A Z0.
  assert (AM : additive_map S S (flipT (SN S) fl)).
  { split; [|split]; unfold flipT.
    + intros F0 G H x y n d (I1 & I2 & I3 & I4). apply H. repeat split; auto. now apply FuncLemmas.flip_in. + intros x y n d _. reflexivity. + intros F0 G x y n d _. reflexivity. }
  apply (rep_map (fun t => tflip t fl false) (fun v => pflip v fl)); auto.
  - intros t [X q] Z. destruct (xflip S t fl X B (A _ _ q)) as (r & Er & Xr & Mx & My & V). exists r. split; [exact Er|]. split; [split; auto; now rewrite Mx, My|exact V].
  - intros t [X q] Z r Er. destruct (xflip S t fl X B (A _ _ q)) as (r' & Er' & Xr & Mx & My & V). rewrite Er in Er'. injection Er' as <-.
    apply (zero0_shape S S t r (flipT (SN S) fl)); auto; try apply X; try apply Xr.
    + intros E. destruct (xfits_dims _ _ X) as (D1 & D2 & D3 & D4). destruct (xfits_dims _ _ Xr) as (R1 & R2 & R3 & R4).
      pose proof (wf_len r (xf_wf _ _ Xr)) as L1. pose proof (wf_len t (xf_wf _ _ X)) as L2. rewrite E in L1. cbn [length] in L1.
      apply length_zero_iff_nil. lia.
    + intros v0 x y n d _. reflexivity.
  - intros g es (Ne & Fa & Ns & G1 & G2 & G3 & G4) E. cbn [pflip]. unfold gflip, gmap. rewrite E. cbn [rbind rmap]. unfold cnt. now rewrite G1, G2, G3, G4.
  - intros -> v0 Z. destruct Z0 as [-> | Z0]; [|discriminate]. exists v0. split; [|exact Z]. destruct Z as (t & -> & _). reflexivity.
Qed.

(** *** expansion of a derivative *)
Definition wmf (w : wmap) (mf : list nat) : list nat := map (fun f => nth f (w_fm w) 0%nat) mf.
Definition wsh (w : wmap) (X Y : list nat) (o : pst) : shape4 := SH X Y (fst (FuncLemmas.w_out w o)) (snd (FuncLemmas.w_out w o)).
Definition wT (w : wmap) (o : pst) (F : table) : table := fun x y n d => F x y (FuncLemmas.wn w o n) (pull (w_dm w) d).
Lemma renQ_Qm fm mf : forall a b, renQ fm (Qm mf) a b -> Qm (map (fun f => nth f fm 0%nat) mf) a b.
Proof.
  intros a b (a' & b' & -> & -> & H) f Hf. rewrite !targets_ren in Hf. assert (E : exists g, (In g (targets a') \/ In g (targets b')) /\ nth g fm 0%nat = f).
  { destruct Hf as [Hf|Hf]; apply in_map_iff in Hf as (g & <- & Hg); exists g; auto. }
  destruct E as (g & Hg & <-). apply in_map_iff. exists g. split; [reflexivity|]. now apply H.
Qed.
Lemma rwexpand nz mf X Y o w v F : FuncLemmas.wmap_ok w o -> Forall (fun k => k < w_nf w)%nat (w_flip w) ->
  (forall k, In k (w_flip w) -> ~ In k (wmf w mf)) -> w_flip w = [] \/ nz = true ->
  rep nz (Qm mf) (SH X Y (fst o) (snd o)) v F -> exists u, tw_expand w v = Ok u /\ rep nz (Qm (wmf w mf)) (wsh w X Y o) u (wT w o F).
Proof.
  intros Wk B A Z R. destruct Wk as [H1 H2 H3 H4 H5 H6 _]. unfold tw_expand.
  destruct (rexpand nz (Qm mf) (SH X Y (fst o) (snd o)) v F (w_fm w) (w_nf w) H2 H3 H1 R) as (u1 & E1 & R1). rewrite E1. cbn [rbind].
  apply (rep_weaken nz _ (Qm (wmf w mf)) _ _ _ (renQ_Qm (w_fm w) mf)) in R1.
  set (S1 := expS (w_fm w) (w_nf w) (SH X Y (fst o) (snd o))) in *.
  assert (P1 : Forall (fun k => k < length (SN S1))%nat (w_flip w)) by (unfold S1, expS; cbn [SN]; now rewrite FuncLemmas.expand_shape_length).
  assert (P2 : avoidQ (w_flip w) (Qm (wmf w mf))) by (intros a b q k Hk; split; intros Hin; apply (A k Hk); apply q; auto).
  destruct (rflip nz (Qm (wmf w mf)) S1 u1 _ (w_flip w) P1 P2 Z R1) as (u2 & E2 & R2).
  rewrite E2. cbn [rbind]. destruct (rexpandD nz _ S1 u2 _ (w_dm w) (w_nd w) H5 H6 H4 R2) as (u3 & E3 & R3). subst S1.
  exists u3. split; [exact E3|]. eapply rep_ext; [exact R3|]. intros x y n d (_ & _ & Hn & _). cbn [expDS expS SN SX SY SD] in *.
  unfold expDT, flipT, expT, wT, FuncLemmas.wn. now rewrite clamp_in by exact Hn.
Qed.
Lemma unit_expand sh wh m : Forall (fun s => s = 1%nat) sh -> Forall (fun s => s = 1%nat) (expand_shape sh wh m).
Proof.
  intros H. apply Forall_forall. intros s Hs. apply (In_nth _ _ 1%nat) in Hs as (k & Hk & <-). rewrite FuncLemmas.expand_shape_length in Hk. rewrite FuncLemmas.nth_expand_shape by exact Hk.
  destruct (index_of k wh) as [j|]; [|reflexivity]. destruct (Nat.lt_ge_cases j (length sh)) as [Hj|Hj]; [|now apply nth_overflow]. exact (proj1 (Forall_forall _ _) H _ (nth_In _ _ Hj)).
Qed.
Lemma unit_w w o : unit_axes o -> unit_axes (FuncLemmas.w_out w o).
Proof. unfold unit_axes, flat, FuncLemmas.w_out. intros H. apply Forall_app in H as [H1 H2]. apply Forall_app. split; now apply unit_expand. Qed.
Lemma pos_w w o : posl (flat o) -> posl (flat (FuncLemmas.w_out w o)).
Proof.
  assert (G : forall sh wh m, posl sh -> posl (expand_shape sh wh m)).
  { intros sh wh m H. apply Forall_forall. intros s Hs. apply (In_nth _ _ 1%nat) in Hs as (k & Hk & <-). rewrite FuncLemmas.expand_shape_length in Hk. rewrite FuncLemmas.nth_expand_shape by exact Hk.
    destruct (index_of k wh) as [j|]; [|lia]. destruct (Nat.lt_ge_cases j (length sh)) as [Hj|Hj]; [|rewrite nth_overflow; lia]. exact (proj1 (Forall_forall _ _) H _ (nth_In _ _ Hj)). }
  intros H. apply posl_app in H as [H1 H2]. apply Forall_app. split; now apply G.
Qed.
Lemma w_value w o q n d : FuncLemmas.wmap_ok w o -> has_st q o -> In n (indices (fst (FuncLemmas.w_out w o))) -> In d (indices (snd (FuncLemmas.w_out w o))) ->
  parr (w_expand w q) (n ++ d) = parr q (FuncLemmas.wn w o n ++ pull (w_dm w) d).
Proof.
  intros Wk Hq Hn Hd. rewrite (parr_at (w_expand w q) (FuncLemmas.w_out w o) n d (FuncLemmas.has_st_expand w o q Hq) Hn Hd).
  pose proof (FuncLemmas.has_st_tst o q Hq) as (_ & _ & T1 & T2 & _). rewrite (FuncLemmas.w_expand_norm w o q [] [] n d Wk T1 T2).
  symmetry. apply (parr_at q o); [exact Hq| |]. now apply FuncLemmas.wn_in. now apply FuncLemmas.wd_in.
Qed.

(** *** expansion of a value *)
Definition colw (col : bool) (o : pst) : bool := col || negb (nonempty (flat o)).
Lemma vwexpand col o w v q : FuncLemmas.wmap_ok w o -> Forall (fun k => k < w_nf w)%nat (w_flip w) -> w_flip w = [] \/ colw col o = false -> has_st q o -> vrel col o v q ->
  exists u, tw_expand w v = Ok u /\ vrel (colw col o) (FuncLemmas.w_out w o) u (w_expand w q).
Proof.
  intros Wk B Z Hq V.
  assert (ZC : colw col o = true -> unit_axes o -> zval v -> (forall i, In i (indices (flat o)) -> parr q i = 0) -> exists u, tw_expand w v = Ok u /\ vrel (colw col o) (FuncLemmas.w_out w o) u (w_expand w q)).
  { intros Hc Hu Zv V0. destruct Z as [Z|Z]; [|congruence]. unfold tw_expand. destruct (texpand_zval v (w_fm w) (w_nf w) false Zv (FuncLemmas.wo_fb _ _ Wk)) as (u1 & E1 & Z1). rewrite E1. cbn [rbind].
    rewrite Z. assert (E2 : pflip u1 [] = Ok u1) by (destruct Z1 as (t & -> & _); reflexivity). rewrite E2. cbn [rbind].
    destruct (texpand_zval u1 (w_dm w) (w_nd w) true Z1 (FuncLemmas.wo_db _ _ Wk)) as (u3 & E3 & Z3). exists u3. split; [exact E3|]. left. split; [exact Hc|]. split; [now apply unit_w|]. split; [exact Z3|].
    intros i Hi. apply in_indices_app in Hi as [Hn Hd]. rewrite <- (firstn_skipn (length (fst (FuncLemmas.w_out w o))) i). rewrite (w_value w o q _ _ Wk Hq Hn Hd). apply V0.
    apply in_indices_app2; [now apply FuncLemmas.wn_in|now apply FuncLemmas.wd_in]. }
  destruct V as [(Hc & Hu & Zv & V0)|(t & -> & Pt)].
  - apply ZC; auto. unfold colw. now rewrite Hc.
  - pose proof Pt as (W & Hx & Hy & Hn & Hd & Vt). destruct (is_zero0 (tv t)) eqn:Z0.
    + unfold is_zero0 in Z0. destruct (shp (tv t)) as [|s1 sh1] eqn:Es; [|discriminate]. destruct (Req_EM_T (el (tv t) []) 0) as [Ez|]; [|discriminate].
      destruct (rank0_groups t W Es) as (A1 & A2 & A3 & A4 & A5 & A6). pose proof (wf_groups t W) as G. pose proof (g_n _ _ _ _ _ G) as G1. pose proof (g_d _ _ _ _ _ G) as G2. cbn [den ns ds] in Hn, Hd.
      rewrite A3 in G1. rewrite A4 in G2. apply length_zero_iff_nil in G1, G2. assert (Fo : flat o = []) by (unfold flat; rewrite <- Hn, <- Hd, G1, G2; reflexivity).
      apply ZC.
      * unfold colw. rewrite Fo. cbn. apply orb_true_r.
      * unfold unit_axes. rewrite Fo. constructor.
      * exists t. auto 10.
      * rewrite Fo. intros i [<-|[]]. destruct (flat_nil o Fo) as [F1 F2]. specialize (Vt [] []). rewrite F1, F2 in Vt. pose proof (Vt (or_introl eq_refl) (or_introl eq_refl)) as V1. rewrite (rank0_get t [] [] [] [] W Es) in V1. cbn [app] in V1. congruence.
    + (* a proper tensor *)
      destruct (pv_xfits _ _ _ Pt) as (X & Mx & My). pose proof (plain_feat t W Hx Hy) as Tf. destruct (xfits_dims _ _ X) as (_ & _ & D3 & D4). cbn [SN SD] in D3, D4.
      pose proof (FuncLemmas.wo_fl _ _ Wk) as L1. pose proof (FuncLemmas.wo_fd _ _ Wk) as N1. pose proof (FuncLemmas.wo_fb _ _ Wk) as B1. pose proof (FuncLemmas.wo_dl _ _ Wk) as L2. pose proof (FuncLemmas.wo_dd _ _ Wk) as N2. pose proof (FuncLemmas.wo_db _ _ Wk) as B2.
      assert (R0 : rep true (Qm []) (SH [] [] (fst o) (snd o)) (PT t) (get (den t))).
      { right. split; [split; [split; [exact X|rewrite Mx, My; apply Qm_nil]|exact Z0]|]. intros x y n d _. reflexivity. }
      destruct (rexpand true (Qm []) (SH [] [] (fst o) (snd o)) (PT t) (get (den t)) (w_fm w) (w_nf w) N1 B1 L1 R0) as (u1 & E1 & R1). unfold tw_expand. rewrite E1. cbn [rbind].
      destruct (texpand_ok t (w_fm w) (w_nf w) W Tf N1 B1) as (r1 & Er1 & Wr1 & Tr1 & De1); [congruence|exact Z0|]. cbn [pexpand] in E1. rewrite Er1 in E1. cbn [rmap rbind] in E1. injection E1 as <-.
      apply (rep_weaken true _ (Qm []) _ _ _ (renQ_Qm (w_fm w) [])) in R1.
      assert (Ml : forall r F S, rep true (Qm []) S (PT r) F -> targets (xm r) = [] /\ targets (ym r) = []).
      { intros r F0 S0 [(? & _)|(((_ & q0) & _) & _)]; [discriminate|]. split; [destruct (targets (xm r)) as [|f l] eqn:E|destruct (targets (ym r)) as [|f l] eqn:E]; auto; exfalso; apply (q0 f); rewrite E; cbn; auto. }
      assert (NZ : forall r F S, rep true (Qm []) S (PT r) F -> is_zero0 (tv r) = false) by (intros r F0 S0 [(? & _)|((_ & ?) & _)]; [discriminate|assumption]).
      assert (DM : forall r F S, rep true (Qm []) S (PT r) F -> nn r = length (SN S) /\ dm r = length (SD S)) by (intros r F0 S0 [(? & _)|(((Xr & _) & _) & _)]; [discriminate|]; destruct (xfits_dims _ _ Xr); tauto).
      set (S1 := expS (w_fm w) (w_nf w) (SH [] [] (fst o) (snd o))) in *.
      assert (P1 : Forall (fun k => k < length (SN S1))%nat (w_flip w)) by (unfold S1, expS; cbn [SN]; now rewrite FuncLemmas.expand_shape_length).
      assert (P2 : avoidQ (w_flip w) (Qm [])) by (intros a b q0 k Hk; split; intros Hin; apply (q0 k); auto).
      destruct (rflip true (Qm []) S1 (PT r1) _ (w_flip w) P1 P2 (or_intror eq_refl) R1) as (u2 & E2 & R2).
      rewrite E2. cbn [rbind]. destruct (tflip_ok r1 (w_flip w) Wr1 Tr1) as (r2 & Er2 & Wr2 & Tr2 & De2).
      { destruct (DM _ _ _ R1) as [-> _]. exact P1. }
      { intros k _. destruct (Ml _ _ _ R1) as [-> ->]. auto. }
      cbn [pflip] in E2. rewrite Er2 in E2. cbn [rmap rbind] in E2. injection E2 as <-.
      destruct (rexpandD true _ S1 (PT r2) _ (w_dm w) (w_nd w) N2 B2 L2 R2) as (u3 & E3 & R3).
      destruct (texpand_dim_ok r2 (w_dm w) (w_nd w) Wr2 Tr2 N2 B2) as (r3 & Er3 & Wr3 & Tr3 & De3); [destruct (DM _ _ _ R2) as [_ ->]; exact L2|exact (NZ _ _ _ R2)|].
      cbn [pexpand] in E3 |- *. rewrite Er3 in E3 |- *. cbn [rmap rbind] in E3 |- *. injection E3 as <-.
      exists (PT r3). split; [reflexivity|]. right. exists r3. split; [reflexivity|].
      destruct De1 as (a1 & a2 & a3 & a4 & _). destruct De2 as (b1 & b2 & b3 & b4 & _). destruct De3 as (c1 & c2 & c3 & c4 & _).
      cbn [dexpand dflip dexpand_dim xs ys ns ds] in a1, a2, a3, a4, b1, b2, b3, b4, c1, c2, c3, c4.
      refine (conj Wr3 (conj _ (conj _ (conj _ (conj _ _))))).
      * congruence. * congruence.
      * rewrite c3, b3, a3, Hn. reflexivity.
      * rewrite c4, b4, a4, Hd. reflexivity.
      * intros n d In1 Id1. rewrite (w_value w o q n d Wk Hq In1 Id1).
        assert (At : at_shape (expDS (w_dm w) (w_nd w) S1) [] [] n d) by (repeat split; cbn; auto).
        change (get (den r3) [] [] n d) with (get (vden (PT r3)) [] [] n d). rewrite (rep_get _ _ _ (PT r3) _ [] [] n d R3 At). unfold expDT, flipT, expT. rewrite <- Vt; [|now apply FuncLemmas.wn_in|now apply FuncLemmas.wd_in].
        unfold FuncLemmas.wn. unfold S1. cbn [expS SN]. rewrite clamp_in; [reflexivity|exact In1].
Qed.

(** *** parameters *)
Definition vsub (w : wmap) (ps : list pval) : list pval := map (fun k => nth k ps (PNum 0)) (w_pm w).
Lemma imap_vsub w (ss : list pst) ps : Forall (fun i => i < length ss)%nat (w_pm w) -> length ps = length ss -> imap (w_pm w) ps = Ok (vsub w ps).
Proof.
  intros B L. unfold imap, vsub. induction (w_pm w) as [|k pm IH]; [reflexivity|]. inversion B; subst. cbn [rmapM map].
  unfold rnth at 1. rewrite (nth_error_nth' ps (PNum 0)) by lia. cbn [rbind]. now rewrite IH.
Qed.
Lemma prms_sub w (ss : list pst) ps qs : Forall (fun i => i < length ss)%nat (w_pm w) -> prms ss ps qs -> prms (FuncWrapP.ssub ss w) (vsub w ps) (FuncWrapP.psub w qs).
Proof.
  intros B (L & H & P). split; [unfold vsub, FuncWrapP.ssub; now rewrite !map_length|]. split; [now apply FuncWrapP.psub_sts|].
  intros i Hi. unfold FuncWrapP.ssub in Hi. rewrite map_length in Hi. rewrite FuncWrapP.nth_ssub, FuncWrapP.nth_psub by exact Hi. unfold vsub.
  rewrite (nth_indep _ (PNum 0) (nth 0 ps (PNum 0))) by (now rewrite map_length).
  rewrite (map_nth (fun k => nth k ps (PNum 0)) (w_pm w) 0%nat i). apply P. exact (proj1 (Forall_forall _ _) B _ (nth_In _ _ Hi)).
Qed.

Definition wdep (w : wmap) (dep : nat -> bool) (i : nat) : bool := match index_of i (w_pm w) with Some k => dep k | None => false end.
(** what is asked of [feat_flip] *)
Definition flip_fine (w : wmap) (ss : list pst) (o : pst) (mf : list nat) (dep : nat -> bool) (col nullh : bool) : Prop :=
  w_flip w = [] \/
  (Forall (fun k => k < w_nf w)%nat (w_flip w) /\ (forall k, In k (w_flip w) -> ~ In k (wmf w mf)) /\ colw col o = false /\ nullh = true /\
   forall i, (i < length (w_pm w))%nat -> dep i = true).

Theorem wrap_refines ss o D mf dep col w tf sf : Forall (fun i => i < length ss)%nat (w_pm w) -> FuncLemmas.wmap_ok w o -> wellformed (FuncWrapP.ssub ss w) o sf ->
  StronglySorted lt (w_pm w) \/ t_nullh tf = true -> flip_fine w ss o mf dep col (t_nullh tf) ->
  refines (FuncWrapP.ssub ss w) o D mf dep col tf sf ->
  refines ss (FuncLemmas.w_out w o) (fun qs => D (FuncWrapP.psub w qs)) (wmf w mf) (wdep w dep) (colw col o) (t_wrap w tf) (s_wrap w sf).
Proof.
  intros B Wk W So Fl R. pose proof (rf_pos _ _ _ _ _ _ _ _ R) as P.
  assert (FB : Forall (fun k => k < w_nf w)%nat (w_flip w)) by (destruct Fl as [-> | (H & _)]; [constructor|exact H]).
  assert (FA : forall k, In k (w_flip w) -> ~ In k (wmf w mf)) by (destruct Fl as [-> | (_ & H & _)]; [intros k []|exact H]).
  assert (IM : forall ps, length ps = length ss -> imap (w_pm w) ps = Ok (vsub w ps)) by (intros ps; now apply imap_vsub).
  constructor.
  - intros ps qs Pp d. pose proof (prms_sub w ss ps qs B Pp) as Ps. destruct (rf_call _ _ _ _ _ _ _ _ R _ _ Ps d) as (v & Ev & V). cbn [t_wrap t_call]. rewrite IM by apply Pp. cbn [rbind]. rewrite Ev. cbn [rbind].
    rewrite (FuncWrapP.wrap_call_ok ss o w sf B W qs (proj1 (proj2 Pp))). cbn [val]. apply (vwexpand col o w v _ Wk FB); auto.
    + destruct Fl as [Fl | (_ & _ & Fl & _)]; auto.
    + exact (FuncAffine.call_st W _ (proj1 (proj2 Ps))).
  - intros ps qs i Pp d Hi. pose proof (prms_sub w ss ps qs B Pp) as Ps. cbn [t_wrap t_grad].
    destruct (FuncWrapP.wrap_grad_ok ss o w sf B Wk W qs i (proj1 (proj2 Pp)) Hi) as (g & Eg & _ & Dg). rewrite Eg. cbn [val]. unfold wdep. unfold FuncWrapP.wgrad in Dg.
    assert (Z0 : forall F, tabeq (gsh (nth i ss ([], [])) (FuncLemmas.w_out w o)) (get g) F -> tabeq (gsh (nth i ss ([], [])) (FuncLemmas.w_out w o)) F (get g)) by (intros F H x y n e Hx; symmetry; now apply H).
    destruct (t_nullg tf) eqn:N.
    + exists tzero. split; [reflexivity|]. assert (Hd : match index_of i (w_pm w) with Some k => dep k | None => false end = false) by (destruct (index_of i (w_pm w)); auto; now apply (rf_dng _ _ _ _ _ _ _ _ R)). rewrite Hd.
      cbn [s_wrap f_grad] in Eg. rewrite <- (rf_ng _ _ _ _ _ _ _ _ R), N in Eg. injection Eg as <-. apply rep_dzero.
    + rewrite IM by apply Pp. cbn [rbind]. unfold rindex. destruct (index_of i (w_pm w)) as [k|] eqn:Ek.
      * cbn [rbind]. destruct (FuncWrapP.idx_lt ss w i k Ek) as [Hk Sk]. destruct (rf_grad _ _ _ _ _ _ _ _ R _ _ k Ps d Hk) as (v & Ev & V). rewrite Ev. cbn [rbind].
        rewrite Sk in V. unfold gsh in V. assert (Zf : w_flip w = [] \/ dep k = true) by (destruct Fl as [Fl | (_ & _ & _ & _ & Fl)]; [now left|right; apply Fl; unfold FuncWrapP.ssub in Hk; now rewrite map_length in Hk]).
        destruct (rwexpand (dep k) mf _ [] o w v _ Wk FB FA Zf V) as (u & Eu & U). rewrite Eu. exists u. split; [reflexivity|]. unfold wsh in U. unfold gsh. eapply rep_ext; [exact U|].
        intros x y n e _. rewrite (Dg x y n e). unfold wT. pose proof (FuncAffine.grad_tst W _ k (proj1 (proj2 Ps)) Hk) as (_ & _ & T1 & T2 & _).
        now rewrite (FuncLemmas.w_expand_norm w o _ x y n e Wk T1 T2).
      * cbn [rbind catch_val]. exists tzero. split; [reflexivity|]. apply rep_tzero. intros x y n e _. rewrite (Dg x y n e). reflexivity.
  - intros ps qs i j Pp d Hi Hj. pose proof (prms_sub w ss ps qs B Pp) as Ps. cbn [t_wrap t_hess s_wrap f_hess]. rewrite <- (rf_nh _ _ _ _ _ _ _ _ R). destruct (t_nullh tf) eqn:N.
    + exists tzero. split; [reflexivity|]. apply rep_dzero.
    + destruct So as [So|So]; [|discriminate]. assert (Ff : w_flip w = []) by (destruct Fl as [Fl | (_ & _ & _ & Fl & _)]; [exact Fl|discriminate]).
      destruct (FuncWrapP.wrap_hess_ok ss o w sf B Wk W qs i j (or_introl So) (proj1 (proj2 Pp)) Hi Hj) as (h & Eh & _ & Dh). cbn [s_wrap f_hess] in Eh. rewrite <- (rf_nh _ _ _ _ _ _ _ _ R), N in Eh. rewrite Eh. cbn [val].
      rewrite IM by apply Pp. cbn [rbind]. unfold rindex. destruct (index_of i (w_pm w)) as [k|] eqn:Ek.
      * cbn [rbind]. destruct (index_of j (w_pm w)) as [l|] eqn:El.
        -- cbn [rbind]. destruct (FuncWrapP.idx_lt ss w i k Ek) as [Hk Sk]. destruct (FuncWrapP.idx_lt ss w j l El) as [Hl Sl]. pose proof (FuncWrapP.sorted_index (w_pm w) i j k l So Ek El Hj) as Hlk.
           destruct (rf_hess _ _ _ _ _ _ _ _ R _ _ k l Ps d Hk Hlk) as (v & Ev & V). rewrite Ev. cbn [rbind]. rewrite Sk, Sl in V. unfold hsh in V.
           destruct (rwexpand false mf _ _ o w v _ Wk FB FA (or_introl Ff) V) as (u & Eu & U). rewrite Eu. exists u. split; [reflexivity|]. unfold wsh in U. unfold hsh. eapply rep_ext; [exact U|].
           intros x y n e _. rewrite Dh. unfold wT, hess_at. destruct (Nat.leb_spec l k); [reflexivity|lia].
        -- cbn [rbind catch_val]. exists tzero. split; [reflexivity|]. apply rep_tzero. intros x y n e _. now rewrite Dh.
      * cbn [rbind catch_val]. exists tzero. split; [reflexivity|]. apply rep_tzero. intros x y n e _. now rewrite Dh.
  - exact (rf_ng _ _ _ _ _ _ _ _ R).
  - exact (rf_nh _ _ _ _ _ _ _ _ R).
  - intros Hc. unfold colw in Hc. apply orb_true_iff in Hc as [Hc|Hc]; apply unit_w; [now apply (rf_col _ _ _ _ _ _ _ _ R)|].
    unfold unit_axes. destruct (flat o); [constructor|discriminate].
  - now apply pos_w.
  - intros f Hf. unfold wmf in Hf. apply in_map_iff in Hf as (g & <- & Hg). unfold FuncLemmas.w_out. cbn [fst]. rewrite FuncLemmas.expand_shape_length.
    pose proof (rf_mf _ _ _ _ _ _ _ _ R g Hg) as Hl. rewrite <- (FuncLemmas.wo_fl _ _ Wk) in Hl. exact (proj1 (Forall_forall _ _) (FuncLemmas.wo_fb _ _ Wk) _ (nth_In _ _ Hl)).
  - intros N i. unfold wdep. destruct (index_of i (w_pm w)); auto. now apply (rf_dng _ _ _ _ _ _ _ _ R).
Qed.
End ex.
