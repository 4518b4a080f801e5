(** Sum at the tensor level refines the dense one. *)
From Verif Require Import Prelude DenseModel AnalyticSpec DenseProofs NDArray NDProofs TensorModel TensorSpec TensorSpecOps TensorLemmas TensorBasic TensorSum TensorSumMain TensorBin TensorArith TensorShape TensorExpand TensorGeneric TensorGSum TensorDotCore TensorDot TensorUfunc TensorUfuncP FuncModel FuncSpec FTModel FTRep FTRep2 FTRep3 FTVal FTDiag FTRefine FTPrim FTAffine.
From Verif Require FuncPrim FuncCompose FuncWrapP FuncLemmas FuncAffine FuncSum.
From Coq Require Import Reals Lra.
Import List ListNotations.
Open Scope R_scope.
Section ex.
Context {ex : exdims}.

(** *** values: the sum of two *)
Lemma ax_le_bok a b J : ax_le a J -> ax_le b J -> bok a b.
Proof.
  intros H. revert b. induction H as [|s s' a J Hs H IH]; intros b Hb; inversion Hb as [|t t' b' J' Ht Hb' E1 E2]; subst; [now left|]. right; right.
  constructor; [unfold bcompat; lia|]. destruct (IH _ Hb') as [-> | [-> | F]]; auto.
  - pose proof (FuncLemmas.ax_le_length _ _ H) as L1. pose proof (FuncLemmas.ax_le_length _ _ Hb') as L2. destruct J; [|discriminate]. destruct b'; [constructor|discriminate].
  - pose proof (FuncLemmas.ax_le_length _ _ H) as L1. pose proof (FuncLemmas.ax_le_length _ _ Hb') as L2. destruct J; [|discriminate]. destruct a; [constructor|discriminate].
Qed.
Lemma ax_le_nilL J : ax_le [] J -> J = [].
Proof. intros H. inversion H. reflexivity. Qed.
Lemma ax_flat (p J : pst) : ax_le (fst p) (fst J) -> ax_le (snd p) (snd J) -> flat J <> [] -> flat p <> [].
Proof. intros B1 B2 NJ E. apply NJ. apply app_eq_nil in E as [E1 E2]. rewrite E1 in B1. rewrite E2 in B2. unfold flat. now rewrite (ax_le_nilL _ B1), (ax_le_nilL _ B2). Qed.
Lemma ax_le_max a b J : ax_le a J -> ax_le b J -> ax_le a (bmax a b) /\ ax_le b (bmax a b).
Proof.
  intros H. revert b. induction H as [|s s' a J Hs H IH]; intros b Hb; inversion Hb as [|t t' b' J' Ht Hb' E1 E2]; subst; [split; constructor|].
  cbn [bmax]. destruct (IH _ Hb') as [I1 I2]. split; constructor; auto; lia.
Qed.
Lemma pv_get p t q n d : pv p (PT t) (parr q) -> has_st q p -> In (clamp (fst p) n) (indices (fst p)) -> In (clamp (snd p) d) (indices (snd p)) -> get (den t) [] [] n d = get q [] [] n d.
Proof.
  intros (W & Hx & Hy & Hn & Hd & V) Hq H1 H2. specialize (V _ _ H1 H2). rewrite (parr_at q p _ _ Hq H1 H2) in V. rewrite <- (FuncSum.get_clamp_nd q p n d Hq) in V. rewrite <- V.
  unfold get. rewrite Hn, Hd, !clamp_idem. reflexivity.
Qed.
Lemma bmax_unit_r a b : length a = length b -> posl a -> Forall (fun s => s = 1%nat) b -> bmax a b = a.
Proof.
  revert b. induction a as [|s a IH]; intros [|s' b] L P U; try discriminate; [reflexivity|]. inversion P; inversion U; subst. cbn [bmax]. rewrite IH by auto. f_equal. lia.
Qed.
Lemma bmax_unit_l a b : length a = length b -> posl b -> Forall (fun s => s = 1%nat) a -> bmax a b = b.
Proof.
  revert b. induction a as [|s a IH]; intros [|s' b] L P U; try discriminate; [reflexivity|]. inversion P; inversion U; subst. cbn [bmax]. rewrite IH by auto. f_equal. lia.
Qed.
Lemma jo_unit_r a o : length (fst a) = length (fst o) -> length (snd a) = length (snd o) -> posl (flat a) -> unit_axes o -> FuncSum.jo a o = a.
Proof.
  intros L1 L2 P U. apply posl_app in P as [P1 P2]. apply Forall_app in U as [U1 U2]. unfold FuncSum.jo. rewrite (bmax_unit_r _ _ L1 P1 U1), (bmax_unit_r _ _ L2 P2 U2). now destruct a.
Qed.
Lemma jo_unit_l a o : length (fst a) = length (fst o) -> length (snd a) = length (snd o) -> posl (flat o) -> unit_axes a -> FuncSum.jo a o = o.
Proof.
  intros L1 L2 P U. apply posl_app in P as [P1 P2]. apply Forall_app in U as [U1 U2]. unfold FuncSum.jo. rewrite (bmax_unit_l _ _ L1 P1 U1), (bmax_unit_l _ _ L2 P2 U2). now destruct o.
Qed.
Lemma parr_dadd q1 q2 a o n d : has_st q1 a -> has_st q2 o -> In n (indices (fst (FuncSum.jo a o))) -> In d (indices (snd (FuncSum.jo a o))) ->
  parr (dadd q1 q2) (n ++ d) = get q1 [] [] n d + get q2 [] [] n d.
Proof.
  intros H1 H2 Hn Hd. rewrite (parr_at (dadd q1 q2) (FuncSum.jo a o) n d (FuncSum.has_st_dadd _ _ _ _ H1 H2) Hn Hd). apply get_dadd.
Qed.
Lemma unit_get q o n d : has_st q o -> posl (flat o) -> unit_axes o -> (forall i, In i (indices (flat o)) -> parr q i = 0) -> length n = length (fst o) -> length d = length (snd o) -> get q [] [] n d = 0.
Proof.
  intros Hq P U Z L1 L2. apply Forall_app in U as [U1 U2]. assert (C : forall sh i, Forall (fun s => s = 1%nat) sh -> length i = length sh -> In (clamp sh i) (indices sh)).
  { intros sh. induction sh as [|s sh IH]; intros [|k i] U L; try discriminate; [now left|]. inversion U; subst. cbn [clamp clampi Nat.leb]. apply TensorLemmas.in_cons. split; [lia|]. apply IH; auto. }
  rewrite (FuncSum.get_clamp_nd q o n d Hq). rewrite <- (parr_at q o _ _ Hq (C _ _ U1 L1) (C _ _ U2 L2)). apply Z. apply in_indices_app2; auto.
Qed.
Lemma zval_add u v : zval u -> zval v -> py OAdd u v = Ok u.
Proof. intros (t & -> & _) (z & -> & H). cbn [py direct tbin]. apply tadd_zero. exists z. auto. Qed.
Theorem vadd c1 c2 a o u v q1 q2 J : ax_le (fst a) (fst J) -> ax_le (snd a) (snd J) -> ax_le (fst o) (fst J) -> ax_le (snd o) (snd J) -> flat J <> [] ->
  posl (flat a) -> posl (flat o) -> has_st q1 a -> has_st q2 o -> vrel c1 a u q1 -> vrel c2 o v q2 ->
  exists w, py OAdd u v = Ok w /\ vrel (c1 && c2) (FuncSum.jo a o) w (dadd q1 q2).
Proof.
  intros A1 A2 O1 O2 NJ P1 P2 H1 H2 V1 V2.
  assert (L1 : length (fst a) = length (fst o)) by (rewrite (FuncLemmas.ax_le_length _ _ A1), (FuncLemmas.ax_le_length _ _ O1); reflexivity).
  assert (L2 : length (snd a) = length (snd o)) by (rewrite (FuncLemmas.ax_le_length _ _ A2), (FuncLemmas.ax_le_length _ _ O2); reflexivity).
  destruct V1 as [(C1 & U1 & Z1 & E1)|(t1 & -> & Pt1)], V2 as [(C2 & U2 & Z2 & E2)|(t2 & -> & Pt2)].
  - exists u. split; [now apply zval_add|]. left. rewrite C1, C2. split; [reflexivity|]. pose proof (jo_unit_r a o L1 L2 P1 U2) as EJ. rewrite EJ.
    split; [exact U1|]. split; [exact Z1|]. intros i Hi. pose proof Hi as Hi'. apply in_indices_app in Hi' as [In1 In2].
    rewrite <- (firstn_skipn (length (fst a)) i). rewrite (parr_dadd q1 q2 a o) by (auto; rewrite EJ; assumption).
    rewrite (unit_get q1 a) by (auto; now apply indices_length). rewrite (unit_get q2 o); auto; [ring| |]; rewrite <- ?L1, <- ?L2; now apply indices_length.
  - (* Tensor(0) on the left *)
    pose proof (jo_unit_l a o L1 L2 P2 U1) as EJ. destruct Z1 as (z & -> & Hz). cbn [py direct tbin]. pose proof Pt2 as (W & Hx & Hy & Hn & Hd & Vt). destruct (pv_xfits _ _ _ Pt2) as (X & Mx & My).
    assert (NS : shp (tv t2) <> []) by (apply (xfits_rank _ t2 X); exact (ax_flat o J O1 O2 NJ)).
    destruct (zero_add _ z t2 (ex_intro _ z (conj eq_refl Hz)) X NS) as (r & Er & Xr & Mxr & Myr & Sr & Vr). exists (PT r). split; [exact Er|]. right. exists r. split; [reflexivity|]. rewrite EJ.
    destruct (xfits_dims _ _ X) as (d1 & d2 & d3 & d4). destruct (xfits_dims _ _ Xr) as (e1 & e2 & e3 & e4).
    assert (SNr : sN r = sN t2) by (unfold sN; rewrite Sr; congruence). assert (SDr : sD r = sD t2) by (unfold sD; rewrite Sr; congruence).
    assert (SXr : sX r = sX t2) by (unfold sX; rewrite Sr; congruence). assert (SYr : sY r = sY t2) by (unfold sY; rewrite Sr; congruence).
    cbn [den xs ys ns ds] in Hx, Hy, Hn, Hd. refine (conj (xf_wf _ _ Xr) (conj _ (conj _ (conj _ (conj _ _))))); cbn [den xs ys ns ds]; try congruence.
    intros n d In1 In2. change (get (den r) [] [] n d = parr (dadd q1 q2) (n ++ d)). rewrite (Vr [] [] n d) by (repeat split; cbn; auto). rewrite (parr_dadd q1 q2 a o) by (auto; rewrite EJ; assumption).
    rewrite (unit_get q1 a) by (auto; rewrite ?L1, ?L2; now apply indices_length). rewrite <- (parr_at q2 o) by auto. rewrite <- Vt by auto. unfold den. ring.
  - pose proof (jo_unit_r a o L1 L2 P1 U2) as EJ. exists (PT t1). split; [cbn [py direct tbin]; destruct Z2 as (z & -> & Hz); apply tadd_zero; exists z; auto|].
    right. exists t1. split; [reflexivity|]. rewrite EJ. eapply pv_ext; [|exact Pt1]. intros i Hi. apply in_indices_app in Hi as [In1 In2].
    rewrite <- (firstn_skipn (length (fst a)) i). rewrite (parr_dadd q1 q2 a o) by (auto; rewrite EJ; assumption). rewrite (parr_at q1 a) by auto.
    rewrite (unit_get q2 o); auto; [ring| |]; rewrite <- ?L1, <- ?L2; now apply indices_length.
  - pose proof Pt1 as (W1 & Hx1 & Hy1 & Hn1 & Hd1 & Vt1). pose proof Pt2 as (W2 & Hx2 & Hy2 & Hn2 & Hd2 & Vt2).
    destruct (plain_facts t1 W1 Hx1 Hy1) as (X1 & Y1 & Mx1 & My1 & S1). destruct (plain_facts t2 W2 Hx2 Hy2) as (X2 & Y2 & Mx2 & My2 & S2).
    assert (R1 : shp (tv t1) <> []) by (rewrite S1; cbn [den ns ds] in Hn1, Hd1; rewrite Hn1, Hd1; exact (ax_flat a J A1 A2 NJ)).
    assert (R2 : shp (tv t2) <> []) by (rewrite S2; cbn [den ns ds] in Hn2, Hd2; rewrite Hn2, Hd2; exact (ax_flat o J O1 O2 NJ)).
    cbn [den ns ds] in Hn1, Hn2, Hd1, Hd2.
    assert (CP : compat t1 t2).
    { constructor; rewrite ?Mx1, ?My1, ?Mx2, ?My2; try (intros f []).
      - left. unfold sX. now rewrite X1. - left. unfold sY. now rewrite Y1.
      - rewrite Hn1, Hn2. now apply (ax_le_bok _ _ (fst J)). - rewrite Hd1, Hd2. now apply (ax_le_bok _ _ (snd J)). }
    destruct (tadd_same t1 t2 ADD W1 W2 (plain_feat t1 W1 Hx1 Hy1) (plain_feat t2 W2 Hx2 Hy2) CP R1 eq_refl) as (r & Er & Wr & Tr & Mxr & Myr & De); [congruence|congruence|].
    exists (PT r). split; [cbn [py direct tbin]; unfold tbin_t; destruct (shp (tv t2)); [congruence|exact Er]|]. right. exists r. split; [reflexivity|].
    apply (pv_den (FuncSum.jo a o) r (dadd (den t1) (den t2))); auto.
    + change (bmax (xs (den t1)) (xs (den t2)) = []). now rewrite Hx1, Hx2.
    + change (bmax (ys (den t1)) (ys (den t2)) = []). now rewrite Hy1, Hy2.
    + change (bmax (sN t1) (sN t2) = bmax (fst a) (fst o)). now rewrite Hn1, Hn2.
    + change (bmax (sD t1) (sD t2) = bmax (snd a) (snd o)). now rewrite Hd1, Hd2.
    + intros n d In1 In2. rewrite (parr_dadd q1 q2 a o) by auto.
      destruct (ax_le_max _ _ _ A1 O1) as [M1 M2]. destruct (ax_le_max _ _ _ A2 O2) as [M3 M4]. cbn [FuncSum.jo fst snd] in In1, In2.
      change (at_ (dadd (den t1) (den t2)) [] [] n d) with (get (den t1) [] [] n d + get (den t2) [] [] n d).
      rewrite (pv_get a t1 q1 n d Pt1 H1) by (eapply FuncSum.in_axle; eassumption). rewrite (pv_get o t2 q2 n d Pt2 H2) by (eapply FuncSum.in_axle; eassumption). reflexivity.
Qed.

(** *** a derivative of an atom is one of the sum *)
Lemma ax_le1 a b : ax_le a b -> le1 a b.
Proof. intros H. induction H as [|s s' a b Hs H IH]; constructor; auto. lia. Qed.
Lemma le1_trans a b c : le1 a b -> le1 b c -> le1 a c.
Proof. intros H. revert c. induction H as [|s s' a b Hs H IH]; intros c Hc; inversion Hc as [|t t' c' l Ht Hc' E1 E2]; subst; constructor; [lia|]. now apply IH. Qed.
Lemma clamp_le1 a b i : le1 a b -> clamp a i = clamp a (clamp b i).
Proof.
  intros H. revert i. induction H as [|s s' a b Hs H IH]; intros i; [reflexivity|]. destruct i as [|k i]; [reflexivity|]. cbn [clamp]. rewrite <- IH. f_equal. unfold clampi. destruct (Nat.leb_spec s 1); [reflexivity|]. destruct (Nat.leb_spec s' 1); [lia|reflexivity].
Qed.
Lemma rep_grow nz mf X Y (o J : pst) v F G : ax_le (fst o) (fst J) -> ax_le (snd o) (snd J) -> DR (snd o) (snd J) -> flat J <> [] ->
  (forall f, In f mf -> nth f (fst o) 1%nat = nth f (fst J) 1%nat) ->
  (forall x y n d, G x y n d = F x y (clamp (fst o) n) (clamp (snd o) d)) ->
  rep nz (Qm mf) (SH X Y (fst o) (snd o)) v F -> rep nz (Qm mf) (SH X Y (fst J) (snd J)) v G.
Proof.
  intros A1 A2 AD NJ M HG R. pose proof (ax_le1 _ _ A1) as L1. pose proof (ax_le1 _ _ A2) as L2.
  set (S := SH X Y (fst o) (snd o)) in *. set (S' := SH X Y (fst J) (snd J)).
  assert (At : forall x y n d, at_shape S' x y n d -> at_shape S x y (clamp (fst o) n) (clamp (snd o) d)).
  { intros x y n d (I1 & I2 & I3 & I4). repeat split; auto; cbn [S S' SN SD] in *; eapply FuncSum.in_axle; eassumption. }
  assert (XG : forall t, tfit (Qm mf) S t -> tfit (Qm mf) S' t /\ forall x y n d, get (den t) x y n d = get (den t) x y (clamp (fst o) n) (clamp (snd o) d)).
  { intros t [X0 q]. split.
    - split; [|exact q]. destruct X0 as [W T Mm X1 X2 X3 X4 X5]. constructor; auto; cbn [S S' SX SY SN SD] in *.
      + now apply (le1_trans _ (fst o)). + apply (DR_trans _ (snd o)); [exact X4|exact AD|apply le1_trans].
      + intros f Hf. rewrite (X5 f Hf). apply M. now apply q.
    - intros x y n d. unfold get. cbn [den ns ds]. now rewrite (clamp_le1 (sN t) (fst o) n (xf_n _ _ X0)), (clamp_le1 (sD t) (snd o) d (xf_d _ _ X0)). }
  destruct R as [(Hn & Z & E)|(Pv & E)].
  - left. split; [exact Hn|]. split; [exact Z|]. intros x y n d Hi. rewrite HG. apply E. now apply At.
  - right. destruct v as [c|a|t|g]; try now destruct Pv.
    + destruct Pv as [Tf Zt]. destruct (XG t Tf) as [Tf' V]. split; [split; assumption|]. intros x y n d Hi. rewrite HG. cbn [vden]. rewrite V. apply E. now apply At.
    + destruct Pv as (Ne & Fa & Ns & g1 & g2 & g3 & g4). split.
      * refine (conj Ne (conj _ (conj NJ (conj g1 (conj g2 (conj _ _)))))).
        -- eapply Forall_impl; [|exact Fa]. intros e (t & -> & Tf). exists t. split; [reflexivity|]. now apply XG.
        -- rewrite g3. apply (le1_len _ _ L1). -- rewrite g4. apply (le1_len _ _ L2).
      * intros x y n d Hi. rewrite HG. rewrite <- (E x y (clamp (fst o) n) (clamp (snd o) d) (At _ _ _ _ Hi)).
        rewrite !(pf_tab (Qm mf) S (PG g)) by (refine (conj Ne (conj Fa (conj Ns (conj g1 (conj g2 (conj g3 g4))))))).
        cbv beta iota. unfold gsum_at. clear - Fa XG. induction Fa as [|e es (t & -> & Tf) Fa IH]; [reflexivity|]. rewrite !Rsum_cons, IH. cbn [iden]. destruct (XG t Tf) as [_ V]. now rewrite V.
Qed.

(** *** sums *)
Record atom := mkAtom { a_w : R; a_t : tfun; a_s : sfun; a_o : pst; a_mf : list nat; a_dep : nat -> bool; a_col : bool }.
Lemma rmapM_all {A B} (f : A -> res B) (P : A -> B -> Prop) l : (forall a, In a l -> exists b, f a = Ok b /\ P a b) -> exists bs, rmapM f l = Ok bs /\ Forall2 P l bs.
Proof.
  induction l as [|a l IH]; intros H; [exists []; split; [reflexivity|constructor]|]. destruct (H a (or_introl eq_refl)) as (b & Eb & Pb). destruct IH as (bs & Ebs & Pbs); [intros a' Ha; apply H; now right|].
  exists (b :: bs). cbn [rmapM]. rewrite Eb. cbn [rbind]. rewrite Ebs. split; [reflexivity|constructor; auto].
Qed.
Lemma rmapM_map {A B C} (g : A -> B) (f : B -> res C) l : rmapM f (map g l) = rmapM (fun a => f (g a)) l.
Proof. induction l as [|a l IH]; cbn [map rmapM]; [reflexivity|]. destruct (f (g a)); cbn [rbind]; [|reflexivity]. now rewrite IH. Qed.
Lemma vfold (J : pst) (Qa : atom -> dt) : flat J <> [] -> forall ats vs, Forall2 (fun a v => vrel (a_col a) (a_o a) v (Qa a)) ats vs ->
  Forall (fun a => ax_le (fst (a_o a)) (fst J) /\ ax_le (snd (a_o a)) (snd J) /\ posl (flat (a_o a)) /\ has_st (Qa a) (a_o a)) ats ->
  forall c A u q, vrel c A u q -> has_st q A -> ax_le (fst A) (fst J) -> ax_le (snd A) (snd J) -> posl (flat A) ->
  exists w, ofold (py OAdd) vs u = Ok w /\ vrel (c && forallb a_col ats) (fold_left FuncSum.jo (map a_o ats) A) w (fold_left dadd (map Qa ats) q).
Proof.
  intros NJ ats vs H. induction H as [|a v ats vs Hv H IH]; intros Fa c A u q Vu Hq A1 A2 PA.
  - exists u. cbn [ofold forallb map fold_left]. rewrite andb_true_r. auto.
  - inversion Fa as [|? ? (O1 & O2 & PO & HO) Fa' E]; subst. destruct (vadd c (a_col a) A (a_o a) u v q (Qa a) J A1 A2 O1 O2 NJ PA PO Hq HO Vu Hv) as (w & Ew & Vw).
    cbn [ofold]. rewrite Ew. cbn [rbind map fold_left forallb]. rewrite andb_assoc. apply IH; auto.
    + now apply FuncSum.has_st_dadd.
    + now apply FuncLemmas.ax_le_bmax. + now apply FuncLemmas.ax_le_bmax.
    + unfold FuncSum.jo, flat. cbn [fst snd]. apply posl_app in PA as [PA1 PA2]. apply posl_app in PO as [PO1 PO2].
      assert (G : forall x y, posl x -> posl y -> posl (bmax x y)).
      { clear. induction x as [|s x IH]; intros [|s' y] H1 H2; cbn [bmax]; auto. inversion H1; inversion H2; subst. constructor; [lia|]. now apply IH. }
      apply Forall_app. split; now apply G.
Qed.
Lemma vsum (J : pst) (Qa : atom -> dt) ats vs : flat J <> [] -> ats <> [] -> Forall2 (fun a v => vrel (a_col a) (a_o a) v (Qa a)) ats vs ->
  Forall (fun a => ax_le (fst (a_o a)) (fst J) /\ ax_le (snd (a_o a)) (snd J) /\ posl (flat (a_o a)) /\ has_st (Qa a) (a_o a)) ats ->
  exists w, pysum vs = Ok w /\ vrel (forallb a_col ats) (join (map a_o ats)) w (dsum (map Qa ats)).
Proof.
  intros NJ Ne H Fa. destruct H as [|a v ats vs Hv H]; [congruence|]. inversion Fa as [|? ? (O1 & O2 & PO & HO) Fa' E]; subst. unfold pysum. cbn [ofold].
  assert (E0 : py OAdd (PNum 0) v = Ok v).
  { assert (Et : exists t, v = PT t) by (destruct Hv as [(_ & _ & (t & -> & _) & _)|(t & -> & _)]; eauto). destruct Et as (t & ->). cbn [py reflected tbin tbin1]. rewrite tadd_num0. reflexivity. }
  rewrite E0. cbn [rbind]. unfold dsum, join. cbn [map fold_left forallb]. change (bmax (fst ([], [])) (fst (a_o a)), bmax (snd ([], [])) (snd (a_o a))) with (FuncSum.jo ([], []) (a_o a)). rewrite FuncSum.jo_nil.
  assert (H0 : has_st (dadd dzero (Qa a)) (a_o a)) by (rewrite <- (FuncSum.jo_nil (a_o a)); apply FuncSum.has_st_dadd; [repeat split|exact HO]).
  apply (vfold J Qa NJ ats vs H Fa' (a_col a) (a_o a) v (dadd dzero (Qa a))); auto. eapply vrel_ext; [|exact Hv].
  intros i Hi. apply (has_st_parr _ _ (a_o a)); auto. intros n d _ _. rewrite get_dadd. replace (get dzero [] [] n d) with 0 by reflexivity. ring.
Qed.

Lemma f2_combine (Q : mcond) S (db : atom -> bool) (T : atom -> table) l vs : Forall2 (fun a v => rep (db a) Q S v (T a)) l vs ->
  Forall2 (fun bF v => rep (fst bF) Q S v (snd bF)) (combine (map db l) (map T l)) vs.
Proof. intros H. induction H as [|a v l vs Hv F IH]; cbn [map combine]; constructor; auto. Qed.
Section SumR.
Context (ss : list pst) (D : list dt -> Prop) (ats : list atom) (b : R).
Notation J := (join (map a_o ats)).
Hypothesis Pss : Forall (fun s => posl (flat s)) ss.
Hypothesis Ne : ats <> [].
Hypothesis Hw : Forall (fun a => a_w a <> 0) ats.
Hypothesis Bc : broadcastable (map a_o ats).
Hypothesis NJ : flat J <> [].
Hypothesis Dr : Forall (fun a => DR (snd (a_o a)) (snd J)) ats.
Hypothesis Wf : Forall (fun a => wellformed ss (a_o a) (a_s a)) ats.
Hypothesis Rf : Forall (fun a => refines ss (a_o a) D (a_mf a) (a_dep a) (a_col a) (a_t a) (a_s a)) ats.
Hypothesis Mf : Forall (fun a => forall f, In f (a_mf a) -> nth f (fst (a_o a)) 1%nat = nth f (fst J) 1%nat) ats.
Hypothesis Hb : b = 0 \/ forallb a_col ats = false.
Definition tats : list (R * tfun) := map (fun a => (a_w a, a_t a)) ats.
Definition sats : list (R * sfun) := map (fun a => (a_w a, a_s a)) ats.
Definition smf : list nat := flat_map a_mf ats.

Lemma ain a : In a ats -> a_w a <> 0 /\ ax_le (fst (a_o a)) (fst J) /\ ax_le (snd (a_o a)) (snd J) /\ wellformed ss (a_o a) (a_s a) /\
  refines ss (a_o a) D (a_mf a) (a_dep a) (a_col a) (a_t a) (a_s a) /\ (forall f, In f (a_mf a) -> nth f (fst (a_o a)) 1%nat = nth f (fst J) 1%nat).
Proof.
  intros H. assert (B : ax_le (fst (a_o a)) (fst J) /\ ax_le (snd (a_o a)) (snd J)) by (exact (proj1 (Forall_forall _ _) Bc (a_o a) (in_map a_o ats a H))).
  refine (conj _ (conj (proj1 B) (conj (proj2 B) (conj _ (conj _ _))))).
  - exact (proj1 (Forall_forall _ _) Hw a H). - exact (proj1 (Forall_forall _ _) Wf a H). - exact (proj1 (Forall_forall _ _) Rf a H). - exact (proj1 (Forall_forall _ _) Mf a H).
Qed.
Lemma wf_sats : Forall2 (fun p o => wellformed ss o (snd p)) sats (map a_o ats).
Proof. unfold sats. clear - Wf. induction Wf as [|a l H Wf' IH]; cbn [map]; constructor; auto. Qed.
Lemma posJ : posl (flat J).
Proof.
  assert (G : forall l A, posl (flat A) -> Forall (fun a => posl (flat (a_o a))) l -> posl (flat (fold_left FuncSum.jo (map a_o l) A))).
  { induction l as [|a l IH]; intros A PA Fa; [exact PA|]. inversion Fa as [|? ? PO Fa' E]; subst. cbn [map fold_left]. apply IH; auto.
    unfold FuncSum.jo, flat. cbn [fst snd]. apply posl_app in PA as [PA1 PA2]. apply posl_app in PO as [PO1 PO2].
    assert (G : forall x y, posl x -> posl y -> posl (bmax x y)).
    { clear. induction x as [|s x IH]; intros [|s' y] H1 H2; cbn [bmax]; auto. inversion H1; inversion H2; subst. constructor; [lia|]. now apply IH. }
    apply Forall_app. split; now apply G. }
  apply (G ats ([], [])); [constructor|]. eapply Forall_impl; [|exact Rf]. intros a R. exact (rf_pos _ _ _ _ _ _ _ _ R).
Qed.
(** derivatives *)
Lemma sum_rep (M : tfun -> res pval) (N : sfun -> res dt) X Y (db : atom -> bool) : posl X -> posl Y ->
  (forall a, In a ats -> exists v g, M (a_t a) = Ok v /\ N (a_s a) = Ok g /\ tst X Y (a_o a) g /\ rep (db a) (Qm (a_mf a)) (SH X Y (fst (a_o a)) (snd (a_o a))) v (get g)) ->
  exists w, (let! ts := rmapM (fun '(w, a) => let! v := M a in py OMul (PNum w) v) tats in pysum ts) = Ok w /\
    rep (existsb db ats) (Qm smf) (SH X Y (fst J) (snd J)) w (get (dsum (FuncSum.terms sats N))).
Proof.
  intros PX PY H. set (T := fun a => (fun x y n d => a_w a * get (val (N (a_s a))) x y n d) : table).
  destruct (rmapM_all (fun a => let! v := M (a_t a) in py OMul (PNum (a_w a)) v) (fun a v => rep (db a) (Qm smf) (SH X Y (fst J) (snd J)) v (T a)) ats) as (vs & Evs & Fvs).
  { intros a Ha. destruct (ain a Ha) as (W0 & A1 & A2 & Wa & Ra & Ma). destruct (H a Ha) as (v & g & Ev & Eg & Tg & R). rewrite Ev. cbn [rbind].
    destruct (rscale _ _ _ _ _ (a_w a) W0 R) as (u & Eu & Ru). exists u. split; [exact Eu|].
    apply (rep_weaken _ (Qm (a_mf a))); [intros p q Hq f Hf; unfold smf; apply in_flat_map; exists a; split; [exact Ha|now apply Hq]|].
    eapply (rep_grow (db a) (a_mf a) X Y (a_o a) J u); eauto; [exact (proj1 (Forall_forall _ _) Dr a Ha)|]. intros x y n d. unfold T. rewrite Eg. cbn [val]. now rewrite (FuncSum.tst_clamp_nd X Y (a_o a) g x y n d Tg). }
  assert (Ev : rmapM (fun '(w, a) => let! v := M a in py OMul (PNum w) v) tats = Ok vs) by (unfold tats; rewrite rmapM_map; exact Evs). rewrite Ev. cbn [rbind].
  assert (PJ := posJ). apply posl_app in PJ as [PJ1 PJ2].
  destruct (rsum (Qm smf) (SH X Y (fst J) (snd J)) (map db ats) vs (map T ats)) as (w & Ew & Rw).
  - repeat split; auto. - exact NJ. - intros ->. inversion Fvs. congruence.
  - now apply f2_combine.
  - now rewrite !map_length.
  - exists w. split; [exact Ew|]. assert (Eb : existsb (fun b0 : bool => b0) (map db ats) = existsb db ats) by (clear; induction ats as [|a l IH]; cbn; congruence). rewrite Eb in Rw.
    eapply rep_ext; [exact Rw|]. intros x y n d _. rewrite FuncSum.get_terms. unfold sats. clear. induction ats as [|a l IH]; cbn [map]; [now rewrite !Rsum_nil|]. rewrite !Rsum_cons, IH. reflexivity.
Qed.
Theorem sum_refines : refines ss J D smf (fun i => existsb (fun a => a_dep a i) ats) (forallb a_col ats) (t_sum tats b) (s_sum sats b).
Proof.
  constructor.
  - intros ps qs Pp d. pose proof (proj1 (proj2 Pp)) as Hs. rewrite (FuncSum.sum_call ss sats b (map a_o ats) wf_sats Bc qs Hs). cbn [val t_sum t_call].
    destruct (rmapM_all (fun a => let! v := t_call (a_t a) ps in py OMul (PNum (a_w a)) v) (fun a v => vrel (a_col a) (a_o a) v (dscal (a_w a) (val (f_call (a_s a) qs)))) ats) as (vs & Evs & Fvs).
    { intros a Ha. destruct (ain a Ha) as (W0 & A1 & A2 & Wa & Ra & Ma). destruct (rf_call _ _ _ _ _ _ _ _ Ra ps qs Pp d) as (v & Ev & V). rewrite Ev. cbn [rbind].
      apply vrel_scale; auto. exact (rf_pos _ _ _ _ _ _ _ _ Ra). exact (FuncAffine.call_st Wa qs Hs). }
    assert (Ev : rmapM (fun '(w, a) => let! v := t_call a ps in py OMul (PNum w) v) tats = Ok vs) by (unfold tats; rewrite rmapM_map; exact Evs). rewrite Ev. cbn [rbind].
    destruct (vsum J (fun a => dscal (a_w a) (val (f_call (a_s a) qs))) ats vs NJ Ne Fvs) as (w & Ew & Vw).
    { apply Forall_forall. intros a Ha. destruct (ain a Ha) as (W0 & A1 & A2 & Wa & Ra & Ma). refine (conj A1 (conj A2 (conj (rf_pos _ _ _ _ _ _ _ _ Ra) _))). exact (FuncAffine.call_st Wa qs Hs). }
    rewrite Ew. cbn [rbind].
    assert (ET : map (fun a => dscal (a_w a) (val (f_call (a_s a) qs))) ats = FuncSum.terms sats (fun a => f_call a qs)) by (unfold FuncSum.terms, sats; rewrite map_map; reflexivity). rewrite ET in Vw.
    apply vrel_shift; auto; [exact posJ|]. pose proof (FuncAffine.call_st (FuncSum.sum_wf ss sats 0 (map a_o ats) wf_sats Bc) qs Hs) as H0. rewrite (FuncSum.sum_call ss sats 0 (map a_o ats) wf_sats Bc qs Hs) in H0. exact H0.
  - intros ps qs i Pp d Hi. pose proof (proj1 (proj2 Pp)) as Hs. rewrite (FuncSum.sum_grad ss sats b (map a_o ats) wf_sats Bc qs i Hs Hi). cbn [val t_sum t_grad]. unfold gsh.
    apply (sum_rep (fun a => t_grad a ps i) (fun a => f_grad a qs i) (flat (nth i ss ([], []))) [] (fun a => a_dep a i)); [exact (proj1 (Forall_forall _ _) Pss _ (nth_In _ _ Hi))|constructor|].
    intros a Ha. destruct (ain a Ha) as (W0 & A1 & A2 & Wa & Ra & Ma). destruct (rf_grad _ _ _ _ _ _ _ _ Ra ps qs i Pp d Hi) as (v & Ev & V). exists v, (val (f_grad (a_s a) qs i)).
    refine (conj Ev (conj (FuncAffine.grad_ok Wa qs i Hs Hi) (conj (FuncAffine.grad_tst Wa qs i Hs Hi) V))).
  - intros ps qs i j Pp d Hi Hj. pose proof (proj1 (proj2 Pp)) as Hs. rewrite (FuncSum.sum_hess ss sats b (map a_o ats) wf_sats Bc qs i j Hs Hi Hj). cbn [val t_sum t_hess]. unfold hsh.
    destruct (sum_rep (fun a => t_hess a ps i j) (fun a => f_hess a qs i j) (flat (nth i ss ([], []))) (flat (nth j ss ([], []))) (fun a => false)) as (w & Ew & Rw).
    + exact (proj1 (Forall_forall _ _) Pss _ (nth_In _ _ Hi)).
    + apply (proj1 (Forall_forall _ _) Pss). apply nth_In. lia.
    + intros a Ha. destruct (ain a Ha) as (W0 & A1 & A2 & Wa & Ra & Ma). destruct (rf_hess _ _ _ _ _ _ _ _ Ra ps qs i j Pp d Hi Hj) as (v & Ev & V). exists v, (val (f_hess (a_s a) qs i j)).
      refine (conj Ev (conj (FuncAffine.hess_ok Wa qs i j Hs Hi Hj) (conj (FuncAffine.hess_tst Wa qs i j Hs Hi Hj) V))).
    + exists w. split; [exact Ew|]. now apply rep_false in Rw.
  - reflexivity.
  - reflexivity.
  - intros Hc. rewrite forallb_forall in Hc. assert (U : Forall (fun a => unit_axes (a_o a)) ats).
    { apply Forall_forall. intros a Ha. destruct (ain a Ha) as (W0 & A1 & A2 & Wa & Ra & Ma). apply (rf_col _ _ _ _ _ _ _ _ Ra). now apply Hc. }
    assert (BU : forall x y, Forall (fun s => s = 1%nat) x -> Forall (fun s => s = 1%nat) y -> Forall (fun s => s = 1%nat) (bmax x y)).
    { clear. induction x as [|s x IH]; intros [|s' y] H1 H2; cbn [bmax]; auto. inversion H1; inversion H2; subst. constructor; [reflexivity|]. now apply IH. }
    assert (G : forall l A, unit_axes A -> Forall (fun a => unit_axes (a_o a)) l -> unit_axes (fold_left FuncSum.jo (map a_o l) A)).
    { induction l as [|a l IH]; intros A PA Fa; [exact PA|]. inversion Fa as [|? ? PO Fa' E]; subst. cbn [map fold_left]. apply IH; auto.
      apply Forall_app in PA as [PA1 PA2]. apply Forall_app in PO as [PO1 PO2]. apply Forall_app. split; now apply BU. }
    apply (G ats ([], [])); [constructor|exact U].
  - exact posJ.
  - intros f Hf. unfold smf in Hf. apply in_flat_map in Hf as (a & Ha & Hf). destruct (ain a Ha) as (W0 & A1 & A2 & Wa & Ra & Ma). rewrite <- (FuncLemmas.ax_le_length _ _ A1). now apply (rf_mf _ _ _ _ _ _ _ _ Ra).
  - discriminate.
Qed.
End SumR.
End ex.
