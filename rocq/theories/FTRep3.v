(** Contractions with diagonal first derivatives. *)
From Verif Require Import Prelude DenseModel AnalyticSpec DenseProofs NDArray NDProofs TensorModel TensorSpec TensorSpecOps TensorLemmas TensorBasic TensorSum TensorSumMain TensorBin TensorArith TensorShape TensorExpand TensorGeneric TensorGSum TensorDotCore TensorDot TensorUfunc TensorUfuncP FuncModel FTModel FTRep FTRep2.
From Coq Require Import Reals Lra.
Import List ListNotations.
Open Scope R_scope.
Section ex.
Context {ex : exdims}.

(** the identity map: axis j runs along feature j *)
Definition idm (k : nat) : list (option nat) := map Some (seq 0 k).
Lemma targets_some l : targets (map Some l) = l.
Proof. induction l; cbn; congruence. Qed.
Lemma targets_idm k : targets (idm k) = seq 0 k.
Proof. apply targets_some. Qed.
Lemma nth_idm k j : (j < k)%nat -> nth_error (idm k) j = Some (Some j).
Proof. intros H. unfold idm. rewrite nth_error_map. rewrite (nth_error_nth' _ 0%nat) by (rewrite seq_length; lia). rewrite seq_nth by lia. reflexivity. Qed.
Lemma idm_nil k : idm k = [] -> k = 0%nat.
Proof. destruct k; [auto|discriminate]. Qed.
Lemma compose_idm k m : Forall (fun f => f < k)%nat (targets m) -> compose_mappings (idm k) m = Ok m.
Proof.
  unfold compose_mappings. induction m as [|[f|] m IH]; intros H; cbn [rmapM targets] in *; [reflexivity| |].
  - inversion H; subst. rewrite nth_idm by auto. cbn [rbind]. rewrite IH by auto. reflexivity.
  - cbn [rbind]. rewrite IH by auto. reflexivity.
Qed.
Lemma msizes_idm : forall k a X nd, length X = k -> (a + k <= length nd)%nat -> msizes (map Some (seq a k)) X nd = firstn k (skipn a nd).
Proof.
  induction k as [|k IH]; intros a [|x X] nd L1 L2; cbn [seq map msizes length] in *; try discriminate; [reflexivity|].
  rewrite IH by lia. assert (E : skipn a nd = nth a nd 1%nat :: skipn (S a) nd).
  { clear - L2. revert a L2; induction nd as [|c nd IHn]; intros [|a] L2; cbn in *; try lia; auto. apply IHn. lia. }
  rewrite E. reflexivity.
Qed.
Lemma full_sN (K Y E : list nat) s : xfits (SH K Y K E) s -> xm s = idm (length K) -> sN s = K.
Proof.
  intros X M. pose proof (le1_len _ _ (xf_n _ _ X)) as L. cbn [SN] in L. apply (nth_ext _ _ 1%nat 1%nat L). intros f Hf. apply (xf_full _ _ X). left. rewrite M, targets_idm. apply in_seq. lia.
Qed.
Lemma full_xs (K Y E : list nat) s : xfits (SH K Y K E) s -> xm s = idm (length K) -> xs (den s) = K.
Proof.
  intros X M. pose proof (full_sN K Y E s X M) as HN. cbn [den xs]. rewrite M, HN. pose proof (wf_groups s (xf_wf _ _ X)) as G. destruct (xfits_dims _ _ X) as (D1 & _).
  cbn [SX] in D1. unfold idm. rewrite msizes_idm; [|now rewrite (g_x _ _ _ _ _ G)|rewrite app_length; lia]. cbn [skipn]. now rewrite firstn_app, Nat.sub_diag, firstn_all, app_nil_r.
Qed.
Lemma le1_bmax_full a K : posl K -> le1 a K -> bmax K a = K.
Proof. intros P H. revert P; induction H; intros P; cbn; auto. inversion P; subst. f_equal; [destruct H; lia|auto]. Qed.
Lemma tdot_left_inv s o r : xd s = nn o -> xm s <> [] -> tdot_left s o = Ok r ->
  compose_mappings (xm s) (xm o) = Ok (xm r) /\ ym r = ym s /\ xd r = xd o /\ yd r = yd s.
Proof.
  intros En Nx E. unfold tdot_left in E. rewrite En, Nat.eqb_refl in E. cbn [negb andb] in E. unfold tdot_left_core in E.
  binv E. binv E. binv E. binv E. binv E. destruct (xm s) as [|m0 ms]; [congruence|].
  destruct (compose_mappings (m0 :: ms) (xm o)) as [mm|]; [cbn [rbind] in E|discriminate]. binv E. tinv E. subst. auto.
Qed.
Definition dlT (K : list nat) (Fs G : table) : table := fun x y m d => Rsum (fun k => G x [] k [] * Fs k y m d) (indices K).
Lemma yabsent K X o : xfits (SH X [] K []) o -> yd o = 0%nat /\ ym o = [] /\ sD o = [].
Proof.
  intros Xo. destruct (xfits_dims _ _ Xo) as (D1 & D2 & D3 & D4). cbn [SX SY SN SD length] in *. pose proof (wf_groups o (xf_wf _ _ Xo)) as G.
  split; [exact D2|]. split.
  - apply single_nil. pose proof (wf_y _ (xf_wf _ _ Xo)) as [H _]. assert (sY o = []) by (apply length_zero_iff_nil; rewrite (g_y _ _ _ _ _ G); auto). congruence.
  - apply length_zero_iff_nil. rewrite (g_d _ _ _ _ _ G). auto.
Qed.
Lemma get_nod a x y n d : ds a = [] -> get a x y n d = get a x y n [].
Proof. intros H. unfold get. rewrite H. reflexivity. Qed.
Lemma xcontract (X Y K Y' E : list nat) s o : posl K -> K <> [] -> xfits (SH K Y' K E) s -> xm s = idm (length K) -> xfits (SH X Y K []) o ->
  contractible s o /\ chained (xm s) (xm o) /\ chained (xm s) (ym o) /\ xm s <> [] /\ xd s = nn o.
Proof.
  intros PK NK Xs Ms Xo. destruct (xfits_dims _ _ Xo) as (D1 & D2 & D3 & D4). destruct (xfits_dims _ _ Xs) as (S1 & S2 & S3 & S4). cbn [SX SY SN SD length] in *.
  assert (CH : forall m, Forall (fun f => f < nn o)%nat (targets m) -> chained (xm s) m).
  { intros m Hm j Hj. exists j. rewrite Ms. apply nth_idm. pose proof (proj1 (Forall_forall _ _) Hm j Hj). cbn beta in H. lia. }
  destruct (xf_feat _ _ Xo) as [T1 T2]. split; [|split; [auto|split; [auto|split; [|lia]]]].
  - constructor; [lia| | | | |].
    + rewrite (full_xs K Y' E s Xs Ms). eapply Forall2_imp; [|exact (xf_n _ _ Xo)]. intros a b [->| ->]; unfold bcompat; auto.
    + left. apply length_zero_iff_nil. rewrite (g_d _ _ _ _ _ (wf_groups o (xf_wf _ _ Xo))). exact D4.
    + intros j f Hj. rewrite (full_xs K Y' E s Xs Ms). destruct (Nat.lt_ge_cases j (length (sN o))) as [Hl|Hl].
      * destruct (nth_le1 _ _ j (xf_n _ _ Xo) Hl) as [-> | ->]; cbn [SN]; [|lia]. rewrite (le1_len _ _ (xf_n _ _ Xo)) in Hl. cbn [SN] in Hl.
        pose proof (proj1 (Forall_forall _ _) PK _ (nth_In K 1%nat Hl)). cbn beta in H. lia.
      * rewrite nth_overflow by lia. rewrite (le1_len _ _ (xf_n _ _ Xo)) in Hl. cbn [SN] in Hl. rewrite nth_overflow by lia. lia.
    + intros f Hf. rewrite (full_xs K Y' E s Xs Ms). rewrite (xf_full _ _ Xo f) by auto. cbn [SN]. lia.
    + intros f Hf. rewrite (full_xs K Y' E s Xs Ms). rewrite (xf_full _ _ Xo f) by auto. cbn [SN]. lia.
  - rewrite Ms. intros E0. apply idm_nil in E0. destruct K; [congruence|discriminate].
Qed.
Lemma xdotl (X Y K E : list nat) s o : posl K -> K <> [] -> xfits (SH K Y K E) s -> xm s = idm (length K) -> xfits (SH X [] K []) o ->
  exists r, tdot_left s o = Ok r /\ xfits (SH X Y K E) r /\ xm r = xm o /\ ym r = ym s /\
    tabeq (SH X Y K E) (get (den r)) (dlT K (get (den s)) (get (den o))).
Proof.
  intros PK NK Xs Ms Xo. destruct (yabsent K X o Xo) as (Yo & Mo & Do). destruct (xcontract X [] K Y E s o PK NK Xs Ms Xo) as (CT & CX & CY & NX & EN).
  destruct (tdot_left_ok s o (xf_wf _ _ Xs) (xf_wf _ _ Xo) (xf_feat _ _ Xs) (xf_feat _ _ Xo) CT Yo (or_intror CX)) as (r & Er & Wr & Tr & De).
  destruct (tdot_left_inv s o r EN NX Er) as (Cm & My & Rx & Ry). destruct (xf_feat _ _ Xo) as [T1 T2]. destruct (xfits_dims _ _ Xo) as (D1 & D2 & D3 & D4). cbn [SX SY SN SD length] in *.
  rewrite Ms, compose_idm in Cm by (rewrite <- D3; exact T1). injection Cm as Mx. symmetry in Mx.
  pose proof De as (E1 & E2 & E3 & E4 & _). cbn [ddot_left xs ys ns ds] in E1, E2, E3, E4.
  pose proof (full_sN K Y E s Xs Ms) as HN.
  assert (Xr : xfits (SH X Y K E) r).
  { constructor; cbn [SX SY SN SD]; auto.
    - unfold tmapped. rewrite Mx, My, Rx, Ry. split; [apply (xf_map _ _ Xo)|apply (xf_map _ _ Xs)].
    - rewrite E1. apply Xo.
    - rewrite E2. apply Xs.
    - change (sN r) with (ns (den r)). rewrite E3. cbn [den ns]. rewrite HN. clear. induction K; constructor; auto.
    - change (sD r) with (ds (den r)). rewrite E4. cbn [den ds]. rewrite Do, bmax_nil_r. apply Xs.
    - intros f _. change (sN r) with (ns (den r)). rewrite E3. cbn [den ns]. now rewrite HN. }
  exists r. split; [exact Er|]. split; [exact Xr|]. split; [exact Mx|]. split; [exact My|].
  intros x y n d Hi. rewrite (dsame_at _ _ _ x y n d De (wf_dpos r Wr) (xfits_dbelow _ _ Xr) Hi). rewrite get_ddot_left. unfold dlT.
  rewrite (full_xs K Y E s Xs Ms). cbn [den ns]. rewrite le1_bmax_full by (auto; apply Xo). apply Rsum_ext. intros k Hk. f_equal. apply get_nod. exact Do.
Qed.

Lemma dlT_add (X Y K E : list nat) Fs : additive_map (SH X [] K []) (SH X Y K E) (dlT K Fs).
Proof.
  split; [|split]; unfold dlT.
  - intros F G H x y n d (H1 & H2 & H3 & H4). apply Rsum_ext. intros k Hk. f_equal. apply H. repeat split; cbn; auto.
  - intros x y n d _. apply Rsum_zero. intros; ring.
  - intros F G x y n d _. rewrite <- Rsum_plus. apply Rsum_ext. intros; ring.
Qed.
Lemma dlT_self (K : list nat) F1 F2 G x y n d : dlT K (fun x y n d => F1 x y n d + F2 x y n d) G x y n d = dlT K F1 G x y n d + dlT K F2 G x y n d.
Proof. unfold dlT. rewrite <- Rsum_plus. apply Rsum_ext. intros; ring. Qed.
Lemma dlT_self_ext (X Y K E : list nat) F1 F2 G : tabeq (SH K Y K E) F1 F2 -> tabeq (SH X Y K E) (dlT K F1 G) (dlT K F2 G).
Proof. intros H x y n d (H1 & H2 & H3 & H4). unfold dlT. apply Rsum_ext. intros k Hk. f_equal. apply H. repeat split; auto. Qed.
Lemma nonsc (X Y K E : list nat) : K <> [] -> nonscalar (SH X Y K E).
Proof. intros N. unfold nonscalar. cbn [SN SD]. destruct K; [congruence|discriminate]. Qed.
Lemma rdotl_T (Qs Qo Qr : mcond) (X Y K E : list nat) s v G : posl K -> K <> [] ->
  (forall a b c, Qs (idm (length K)) c -> Qo a b -> Qr a c) ->
  tfit Qs (SH K Y K E) s -> xm s = idm (length K) -> rep true Qo (SH X [] K []) v G ->
  exists w, pdot_left (PT s) v = Ok w /\ rep true Qr (SH X Y K E) w (dlT K (get (den s)) G).
Proof.
  intros PK NK HQ [Xs qs] Ms. destruct (xfits_dims _ _ Xs) as (S1 & S2 & S3 & S4). cbn [SX SY SN SD] in *.
  apply (rep_map (tdot_left s) (pdot_left (PT s))).
  - apply dlT_add.
  - intros t [Xt qt] Z. destruct (xdotl X Y K E s t PK NK Xs Ms Xt) as (r & Er & Xr & Mx & My & V). exists r. split; [exact Er|]. split; [|exact V].
    split; [exact Xr|]. rewrite Mx, My. apply (HQ _ (ym t)); auto. now rewrite <- Ms.
  - intros t [Xt qt] Z r Er. destruct (xdotl X Y K E s t PK NK Xs Ms Xt) as (r' & Er' & Xr & _). rewrite Er in Er'. injection Er' as <-.
    apply rank_not_zero. apply (xfits_rank _ _ Xr). now apply nonsc.
  - intros t. cbn [pdot_left tdot_left_any]. destruct (tdot_left s t); reflexivity.
  - intros g es (Ne & A & NS & C1 & C2 & C3 & C4) Ee. cbn [SX SY SN SD length] in *. cbn [pdot_left tdot_left_any]. rewrite C3, S1, Nat.eqb_refl. cbn [negb andb]. unfold gmap.
    rewrite Ee. cbn [rbind]. unfold cnt. cbn [SX SY SN SD]. rewrite C1, S2, S3, S4, C4, Nat.max_0_r. reflexivity.
  - discriminate.
  - intros _. now apply nonsc.
Qed.
(** a formal sum contracted with a Tensor, added to an accumulator *)
Lemma gdl_t (Qs Qo Qr : mcond) (X Y K E : list nat) o : posl K -> K <> [] -> spos (SH X Y K E) ->
  (forall a c, Qs a c -> a = idm (length K)) -> (forall a b c, Qs (idm (length K)) c -> Qo a b -> Qr a c) -> tfit Qo (SH X [] K []) o ->
  forall es, Forall (ifit Qs (SH K Y K E)) es -> forall g, Forall (ifit Qr (SH X Y K E)) (els g) -> gle (SH X Y K E) g ->
  exists g', ofold (fun acc e => on_item (fun t => let! v := tdot_left t o in gbin1 acc (IT v) ADD) e) es g = Ok g' /\
    gle (SH X Y K E) g' /\ Forall (ifit Qr (SH X Y K E)) (els g') /\ (es <> [] -> pf Qr (SH X Y K E) (PG g')) /\
    tabeq (SH X Y K E) (get (gden g')) (fun x y n d => get (gden g) x y n d + dlT K (gsum_at es) (get (den o)) x y n d).
Proof.
  intros PK NK PS Hid HQ [Xo qo]. induction es as [|e es IH]; intros A g Ag Lg; cbn [ofold].
  - exists g. split; [reflexivity|]. split; [exact Lg|]. split; [exact Ag|]. split; [congruence|]. intros x y n d _. unfold dlT, gsum_at.
    rewrite Rsum_zero by (intros; rewrite Rsum_nil; ring). ring.
  - inversion A as [|? ? (t & -> & Xt & qt) A']; subst. cbn [on_item].
    assert (Mt : xm t = idm (length K)) by (now apply (Hid _ (ym t))).
    destruct (xdotl X Y K E t o PK NK Xt Mt Xo) as (r & Er & Xr & Mx & My & V). rewrite Er. cbn [rbind].
    assert (Fr : tfit Qr (SH X Y K E) r). { split; [exact Xr|]. rewrite Mx, My. apply (HQ _ (ym o)); auto. now rewrite <- Mt. }
    destruct (gadd1 Qr (SH X Y K E) g r PS (nonsc X Y K E NK) Ag Lg Fr) as (g1 & E1 & P1 & V1). rewrite E1. cbn [rbind].
    destruct (pf_gle _ _ g1 P1) as [A1 L1]. destruct (IH A' g1 A1 L1) as (g' & Eg & Lg' & Ag' & P' & V').
    exists g'. split; [exact Eg|]. split; [exact Lg'|]. split; [exact Ag'|]. split.
    + intros _. destruct es; [cbn [ofold] in Eg; injection Eg as <-; exact P1|apply P'; discriminate].
    + intros x y n d Hi. rewrite (V' x y n d Hi), (V1 x y n d Hi), (V x y n d Hi). rewrite Rplus_assoc. f_equal.
      rewrite <- dlT_self. unfold dlT. apply Rsum_ext. intros k Hk. unfold gsum_at. rewrite Rsum_cons. reflexivity.
Qed.
Lemma gle_g0 S : gle S g0.
Proof. unfold gle, g0; cbn. lia. Qed.
Lemma get_g0 x y n d : get (gden g0) x y n d = 0.
Proof. rewrite get_gden. unfold gsum_at, g0; cbn [els]. apply Rsum_nil. Qed.
Theorem rdot_left (Qs Qo Qr : mcond) (X Y K E : list nat) u v Fs G : posl K -> K <> [] -> spos (SH X Y K E) ->
  (forall a c, Qs a c -> a = idm (length K)) -> (forall a b c, Qs (idm (length K)) c -> Qo a b -> Qr a c) ->
  rep true Qs (SH K Y K E) u Fs -> rep true Qo (SH X [] K []) v G ->
  exists w, pdot_left u v = Ok w /\ rep true Qr (SH X Y K E) w (dlT K Fs G).
Proof.
  intros PK NK PS Hid HQ Ru Rv. apply rep_nz in Ru as [Pu Vu].
  assert (FIN : forall w F', rep true Qr (SH X Y K E) w F' -> tabeq (SH X Y K E) F' (dlT K (get (vden u)) G) -> rep true Qr (SH X Y K E) w (dlT K Fs G)).
  { intros w F' R H. eapply rep_ext; [exact R|]. intros x y n d Hi. rewrite (H x y n d Hi). apply (dlT_self_ext X Y K E); auto. }
  destruct u as [| |s|g]; try now destruct Pu.
  - destruct Pu as [Ft Zs]. destruct (rdotl_T Qs Qo Qr X Y K E s v G PK NK HQ Ft (Hid _ _ (proj2 Ft)) Rv) as (w & Ew & Rw).
    exists w. split; [exact Ew|]. apply (FIN w _ Rw). intros x y n d _. reflexivity.
  - pose proof Pu as (Ne & A & NS & C). apply rep_nz in Rv as [Pv Vv]. destruct v as [| |o|h]; try now destruct Pv.
    + destruct Pv as [Fo Zo]. cbn [pdot_left gdot_left]. unfold gdot_left_t.
      destruct (gdl_t Qs Qo Qr X Y K E o PK NK PS Hid HQ Fo (els g) A g0 (Forall_nil _) (gle_g0 _)) as (g' & Eg & _ & _ & P' & V'). rewrite Eg. cbn [rmap rbind].
      exists (PG g'). split; [reflexivity|]. apply (FIN _ (get (gden g'))); [right; split; [now apply P'|intros x y n d _; reflexivity]|].
      intros x y n d Hi. rewrite (V' x y n d Hi), get_g0, Rplus_0_l. transitivity (dlT K (get (gden g)) (get (den o)) x y n d).
      * unfold dlT. apply Rsum_ext. intros k _. now rewrite get_gden.
      * apply (dlT_add X Y K E); auto.
    + pose proof Pv as (Neh & Ah & _). cbn [pdot_left gdot_left].
      assert (KK : forall hs, Forall (ifit Qo (SH X [] K [])) hs -> forall acc, Forall (ifit Qr (SH X Y K E)) (els acc) -> gle (SH X Y K E) acc -> (els acc <> [] -> pf Qr (SH X Y K E) (PG acc)) ->
        exists g', ofold (fun acc e => on_item (fun t => let! v := gdot_left_t g t in gbin_g acc v ADD) e) hs acc = Ok g' /\ (hs <> [] \/ els acc <> [] -> pf Qr (SH X Y K E) (PG g')) /\
          tabeq (SH X Y K E) (get (gden g')) (fun x y n d => get (gden acc) x y n d + dlT K (get (gden g)) (gsum_at hs) x y n d)).
      { induction hs as [|e hs IH]; intros Ahs acc Aa La Pa; cbn [ofold].
        - exists acc. split; [reflexivity|]. split; [intros [H|H]; [congruence|auto]|]. intros x y n d _. unfold dlT, gsum_at. rewrite Rsum_zero by (intros; rewrite Rsum_nil; ring). ring.
        - inversion Ahs as [|? ? (o & -> & Fo) Ahs']; subst. cbn [on_item]. unfold gdot_left_t at 1.
          destruct (gdl_t Qs Qo Qr X Y K E o PK NK PS Hid HQ Fo (els g) A g0 (Forall_nil _) (gle_g0 _)) as (g1 & E1 & L1 & A1 & P1 & V1). rewrite E1. cbn [rbind gbin_g].
          destruct (gaddl Qr (SH X Y K E) (els g1) PS (nonsc X Y K E NK) A1 acc Aa La Pa) as (g2 & E2 & L2 & A2 & P2 & V2). rewrite E2. cbn [rbind].
          assert (P2' : pf Qr (SH X Y K E) (PG g2)) by (apply P2; right; apply (P1 Ne)).
          destruct (IH Ahs' g2 A2 L2 (fun _ => P2')) as (g' & E' & P' & V'). exists g'. split; [exact E'|]. split; [intros _; apply P'; right; apply P2'|].
          intros x y n d Hi. rewrite (V' x y n d Hi), (V2 x y n d Hi), <- get_gden, (V1 x y n d Hi), get_g0, Rplus_0_l.
          rewrite (dlT_self_ext X Y K E (gsum_at (els g)) (get (gden g)) (get (den o)) (fun x y n d _ => eq_sym (get_gden g x y n d)) x y n d Hi).
          rewrite Rplus_assoc. f_equal. destruct (dlT_add X Y K E (get (gden g))) as (B1 & _ & B3).
          rewrite <- (B3 (get (den o)) (gsum_at hs) x y n d Hi). apply B1; auto. intros x' y' n' d' _. unfold gsum_at. rewrite Rsum_cons. reflexivity. }
      destruct (KK (els h) Ah g0 (Forall_nil _) (gle_g0 _)) as (g' & Eg & P' & V'); [intros H; now contradiction H|]. rewrite Eg. cbn [rmap rbind].
      exists (PG g'). split; [reflexivity|]. apply (FIN _ (get (gden g'))); [right; split; [apply P'; now left|intros x y n d _; reflexivity]|].
      intros x y n d Hi. rewrite (V' x y n d Hi), get_g0, Rplus_0_l. apply (dlT_add X Y K E); auto. intros x' y' n' d' Hi'. rewrite <- (Vv _ _ _ _ Hi'). cbn [vden]. now rewrite get_gden.
Qed.

(** *** dot_right *)
Lemma tdot_right_inv s o r : xm s <> [] -> tdot_right s o = Ok (PT r) ->
  compose_mappings (xm s) (xm o) = Ok (xm r) /\ compose_mappings (xm s) (ym o) = Ok (ym r) /\ xd r = xd o /\ yd r = yd o.
Proof.
  intros Nx E. unfold tdot_right in E. destruct (is_zero0 _); [discriminate|]. destruct (negb _); [discriminate|]. destruct (negb _); [discriminate|].
  binv E. binv E. binv E. binv E. binv E. destruct (xm s) as [|m0 ms]; [congruence|]. cbn [rbind] in E.
  destruct (compose_mappings (m0 :: ms) (xm o)) as [mx|]; [cbn [rbind] in E|discriminate].
  destruct (compose_mappings (m0 :: ms) (ym o)) as [my|]; [cbn [rbind] in E|discriminate]. binv E.
  match type of E with rbind ?e _ = _ => destruct e as [t'|] eqn:Et; [cbn [rbind] in E|discriminate] end. injection E as ->. tinv Et. subst. auto.
Qed.
Definition drT (K : list nat) (Fs G : table) : table := fun x y m d => Rsum (fun k => G x y k [] * Fs k [] m d) (indices K).
Lemma xdotr (X Y K E : list nat) s o : posl K -> K <> [] -> xfits (SH K [] K E) s -> xm s = idm (length K) -> xfits (SH X Y K []) o -> is_zero0 (tv o) = false ->
  exists r, tdot_right s o = Ok (PT r) /\ xfits (SH X Y K E) r /\ xm r = xm o /\ ym r = ym o /\
    tabeq (SH X Y K E) (get (den r)) (drT K (get (den s)) (get (den o))).
Proof.
  intros PK NK Xs Ms Xo Zo. destruct (xcontract X Y K [] E s o PK NK Xs Ms Xo) as (CT & CX & CY & NX & EN).
  destruct (xfits_dims _ _ Xs) as (S1 & S2 & S3 & S4). destruct (xfits_dims _ _ Xo) as (D1 & D2 & D3 & D4). cbn [SX SY SN SD length] in *.
  destruct (tdot_right_ok s o (xf_wf _ _ Xs) (xf_wf _ _ Xo) (xf_feat _ _ Xs) (xf_feat _ _ Xo) CT S2 Zo CX CY) as (r & Er & Wr & Tr & De); [congruence|].
  destruct (tdot_right_inv s o r NX Er) as (Cm & Cn & Rx & Ry). destruct (xf_feat _ _ Xo) as [T1 T2].
  rewrite Ms, compose_idm in Cm by (rewrite <- D3; exact T1). injection Cm as Mx. symmetry in Mx.
  rewrite Ms, compose_idm in Cn by (rewrite <- D3; exact T2). injection Cn as My. symmetry in My.
  assert (Do : sD o = []) by (apply length_zero_iff_nil; rewrite (g_d _ _ _ _ _ (wf_groups o (xf_wf _ _ Xo))); exact D4).
  pose proof De as (E1 & E2 & E3 & E4 & _). cbn [ddot_right xs ys ns ds] in E1, E2, E3, E4.
  pose proof (full_sN K [] E s Xs Ms) as HN.
  assert (Xr : xfits (SH X Y K E) r).
  { constructor; cbn [SX SY SN SD]; auto.
    - unfold tmapped. rewrite Mx, My, Rx, Ry. apply (xf_map _ _ Xo).
    - rewrite E1. apply Xo.
    - rewrite E2. apply Xo.
    - change (sN r) with (ns (den r)). rewrite E3. cbn [den ns]. rewrite HN. clear. induction K; constructor; auto.
    - change (sD r) with (ds (den r)). rewrite E4. cbn [den ds]. rewrite Do, bmax_nil_r. apply Xs.
    - intros f _. change (sN r) with (ns (den r)). rewrite E3. cbn [den ns]. now rewrite HN. }
  exists r. split; [exact Er|]. split; [exact Xr|]. split; [exact Mx|]. split; [exact My|].
  intros x y n d Hi. rewrite (dsame_at _ _ _ x y n d De (wf_dpos r Wr) (xfits_dbelow _ _ Xr) Hi). rewrite get_ddot_right. unfold drT.
  rewrite (full_xs K [] E s Xs Ms). cbn [den ns]. rewrite le1_bmax_full by (auto; apply Xo). apply Rsum_ext. intros k Hk. f_equal. apply get_nod. exact Do.
Qed.
Definition drt (s t : tensor) : res tensor := match tdot_right s t with Ok (PT r) => Ok r | Ok _ => Raise ValueError | Raise e => Raise e end.
Theorem rdot_right nz (Qo : mcond) (X Y K E : list nat) s v G : posl K -> K <> [] ->
  xfits (SH K [] K E) s -> xm s = idm (length K) -> rep nz Qo (SH X Y K []) v G ->
  exists w, pdot_right (PT s) v = Ok w /\
    ((nz = false /\ w = PNum 0 /\ tabeq (SH X Y K E) (drT K (get (den s)) G) (fun _ _ _ _ => 0)) \/ rep true Qo (SH X Y K E) w (drT K (get (den s)) G)).
Proof.
  intros PK NK Xs Ms R. destruct (xfits_dims _ _ Xs) as (S1 & S2 & S3 & S4). cbn [SX SY SN SD length] in *.
  assert (AM : additive_map (SH X Y K []) (SH X Y K E) (drT K (get (den s)))).
  { split; [|split]; unfold drT.
    - intros F H0 H x y n d (H1 & H2 & H3 & H4). apply Rsum_ext. intros k Hk. f_equal. apply H. repeat split; cbn; auto.
    - intros x y n d _. apply Rsum_zero. intros; ring.
    - intros F H0 x y n d _. rewrite <- Rsum_plus. apply Rsum_ext. intros; ring. }
  destruct R as [(-> & Z & HG)|R].
  - destruct (zval_inv v Z) as [t ->]. cbn [pdot_right tdot_right_any]. rewrite (tdot_right_zero s t (zval_zero0 t Z)). exists (PNum 0). split; [reflexivity|]. left.
    split; [reflexivity|]. split; [reflexivity|]. intros x y n d Hi. destruct AM as (B1 & B2 & _). rewrite <- (B2 x y n d Hi). now apply B1.
  - assert (R' : rep true Qo (SH X Y K []) v G) by (right; exact R). clear R.
    assert (HR : exists w, pdot_right (PT s) v = Ok w /\ rep true Qo (SH X Y K E) w (drT K (get (den s)) G)).
    { assert (HH : exists w, (fun v => match v with PT t => rmap PT (drt s t) | _ => pdot_right (PT s) v end) v = Ok w /\ rep true Qo (SH X Y K E) w (drT K (get (den s)) G)).
      2: { destruct HH as (w & Ew & Rw). exists w. split; [|exact Rw]. destruct v as [| |t|g]; try exact Ew.
           apply rep_nz in R' as [[[Xt qt] Zt] _]. destruct (xdotr X Y K E s t PK NK Xs Ms Xt Zt) as (r & Er & _). cbn [pdot_right tdot_right_any]. rewrite Er.
           unfold drt in Ew. rewrite Er in Ew. exact Ew. }
      apply (rep_map (drt s) (fun v => match v with PT t => rmap PT (drt s t) | _ => pdot_right (PT s) v end) true Qo Qo (SH X Y K []) (SH X Y K E) (drT K (get (den s))) v G); [| | | | | | |exact R']; clear R'.
      - exact AM.
      - intros t [Xt qt] Zt. destruct (xdotr X Y K E s t PK NK Xs Ms Xt Zt) as (r & Er & Xr & Mx & My & V). exists r. unfold drt. rewrite Er. split; [reflexivity|].
        split; [split; auto; rewrite Mx, My; exact qt|exact V].
      - intros t [Xt qt] Zt r Er. destruct (xdotr X Y K E s t PK NK Xs Ms Xt Zt) as (r' & Er' & Xr & _). unfold drt in Er. rewrite Er' in Er. injection Er as <-.
        apply rank_not_zero. apply (xfits_rank _ _ Xr). now apply nonsc.
      - reflexivity.
      - intros g es (Ne & A & NS & C1 & C2 & C3 & C4) Ee. cbn [SX SY SN SD length] in *. cbn [pdot_right tdot_right_any]. rewrite S2, C3, S1, !Nat.eqb_refl. cbn [negb orb].
        assert (EQ : rmapM (on_item (fun e => let! v := tdot_right s e in as_item v)) (els g) = rmapM (on_item (fun t => let! t' := drt s t in Ok (IT t'))) (els g)).
        { clear - A PK NK Xs Ms NS. induction A as [|e es (t & -> & Xt & qt) A IH]; cbn [rmapM]; [reflexivity|]. cbn [on_item]. unfold drt at 1.
          destruct (xdotr X Y K E s t PK NK Xs Ms Xt) as (r & Er & _); [apply rank_not_zero; now apply (xfits_rank _ _ Xt)|]. rewrite Er. cbn [rbind as_item]. rewrite IH. reflexivity. }
        rewrite EQ, Ee. cbn [rbind]. unfold cnt. cbn [SX SY SN SD]. rewrite C1, C2, S3, S4, C4, Nat.max_0_r. reflexivity.
      - discriminate.
      - intros _. now apply nonsc. }
    destruct HR as (w & Ew & Rw). exists w. split; [exact Ew|now right].
Qed.
(** adding the result of dot_right *)
Lemma radd_or0 b nz Q S u w F G : spos S -> nonscalar S -> rep b Q S u F ->
  ((nz = false /\ w = PNum 0 /\ tabeq S G (fun _ _ _ _ => 0)) \/ rep true Q S w G) ->
  exists r, py OAdd u w = Ok r /\ rep b Q S r (fun x y n d => F x y n d + G x y n d).
Proof.
  intros PS NS Ru [(_ & -> & HG)|Rw].
  - exists u. split; [now apply (radd0_r _ _ _ _ _ Ru)|]. eapply rep_ext; [exact Ru|]. intros x y n d Hi. rewrite (HG x y n d Hi). ring.
  - destruct (radd b true Q S u w F G PS NS Ru Rw) as (r & Er & Rr). exists r. split; [exact Er|]. rewrite orb_true_r in Rr.
    destruct b; [exact Rr|now apply rep_false in Rr].
Qed.

(** *** the quadratic term of a composition *)
Definition qT (K : list nat) (H Gi Gj : table) : table := transT (dlT K (transT (dlT K H Gi)) Gj).
Theorem rquad (Qi Qj : mcond) (X Y K E : list nat) h vi vj H Gi Gj : posl K -> K <> [] -> posl X -> posl Y -> posl E ->
  rep true (fun a b => a = idm (length K) /\ b = idm (length K)) (SH K K K E) h H ->
  rep true Qi (SH X [] K []) vi Gi -> rep true Qj (SH Y [] K []) vj Gj ->
  exists w, pquad h vi vj = Ok w /\ rep true (fun a b => (exists a', Qi a a') /\ (exists b', Qj b b')) (SH X Y K E) w (qT K H Gi Gj).
Proof.
  intros PK NK PX PY PE Rh Ri Rj. unfold pquad.
  destruct (rdot_left (fun a b => a = idm (length K) /\ b = idm (length K)) Qi (fun a c => (exists a', Qi a a') /\ c = idm (length K)) X K K E h vi H Gi PK NK) as (w1 & E1 & R1); auto.
  { repeat split; auto. } { intros a c [-> _]; auto. } { intros a b c [_ ->] q. split; [now exists b|auto]. }
  rewrite E1. cbn [rbind]. destruct (rtrans _ _ _ _ _ R1) as (w2 & E2 & R2). rewrite E2. cbn [rbind]. unfold transS in R2; cbn [SX SY SN SD] in R2.
  destruct (rdot_left (flipQ (fun a c => (exists a', Qi a a') /\ c = idm (length K))) Qj (fun a c => (exists b', Qj a b') /\ (exists a', Qi c a')) Y X K E w2 vj (transT (dlT K H Gi)) Gj PK NK) as (w3 & E3 & R3); [| | |exact R2|exact Rj|].
  { repeat split; auto. } { intros a c [_ ->]; auto. } { intros a b c [q _] q'. split; [now exists b|auto]. }
  rewrite E3. cbn [rbind]. destruct (rtrans _ _ _ _ _ R3) as (w4 & E4 & R4). exists w4. split; [exact E4|].
  unfold transS in R4; cbn [SX SY SN SD] in R4. eapply rep_weaken; [|exact R4]. intros a b [[q1 q2] [q3 q4]]. split; [now exists q3|now exists q1].
Qed.
End ex.
