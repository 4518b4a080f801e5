(** Contractions: dot_left and dot_right refine the dense contractions. *)
From Verif Require Import Prelude DenseModel AnalyticSpec DenseProofs NDArray NDProofs TensorModel TensorSpec TensorSpecOps TensorLemmas TensorBasic TensorSum TensorSumMain TensorBin TensorArith TensorShape TensorDotCore.
From Coq Require Import Reals Lra.
Import List ListNotations.
Open Scope R_scope.

(** *** the two reshaped operands *)
Lemma tail_gsel D dim : glen D dim -> repeat Sl (length D) ++ repeat Nw (dim - length D) = gsel (length D) dim.
Proof.
  intros [->|<-]; cbn [length].
  - rewrite Nat.sub_0_r. reflexivity.
  - rewrite Nat.sub_diag, app_nil_r. destruct D; reflexivity.
Qed.
Lemma read_l v P D q dim : shp v = P ++ D -> glen D dim ->
  exists l, np_index (repeat Sl (length P) ++ repeat Nw q ++ repeat Sl (length D) ++ repeat Nw (dim - length D)) v = Ok l /\
    shp l = P ++ repeat 1%nat q ++ grp D dim /\
    forall p z d, length p = length P -> length z = q -> length d = dim -> el l (p ++ z ++ d) = el v (p ++ ung D d).
Proof.
  intros S G. rewrite tail_gsel by auto. rewrite <- (app_nil_r (gsel _ _)). rewrite np_index_ok.
  - eexists. split; [reflexivity|]. cbn [shp el]. split.
    + rewrite S, ishape_sl, ishape_nw. rewrite <- (app_nil_r D) at 2. rewrite gsel_shape by auto. cbn [ishape]. now rewrite app_nil_r.
    + intros p z d Lp Lz Ld. rewrite iidx_sl, iidx_nw by auto. rewrite <- (app_nil_r d) at 1. rewrite gsel_idx by auto. cbn [iidx]. now rewrite app_nil_r.
  - rewrite app_nil_r. apply nodots_app; [apply nodots_sl|]. apply nodots_app; [apply nodots_nw|]. apply gsel_nodots.
  - rewrite !count_sl_app, count_sl_sl, count_sl_nw, gsel_count by auto. unfold ndim. rewrite S, app_length. cbn. lia.
Qed.
Lemma read_r_dots v P D a dim : shp v = P ++ D -> glen D dim ->
  exists r, np_index (repeat Nw a ++ Dots :: repeat Nw (dim - length D)) v = Ok r /\
    shp r = repeat 1%nat a ++ P ++ grp D dim /\
    forall z p d, length z = a -> length p = length P -> length d = dim -> el r (z ++ p ++ d) = el v (p ++ ung D d).
Proof.
  intros S G. rewrite np_index_dots. eexists. split; [reflexivity|]. cbn [shp el].
  unfold ndim. rewrite S, app_length, repeat_app, <- !app_assoc, tail_gsel by auto. rewrite <- (app_nil_r (gsel _ _)). split.
  - rewrite ishape_nw, ishape_sl. rewrite <- (app_nil_r D) at 2. rewrite gsel_shape by auto. cbn [ishape]. now rewrite app_nil_r.
  - intros z p d Lz Lp Ld. rewrite iidx_nw, iidx_sl by auto. rewrite <- (app_nil_r d) at 1. rewrite gsel_idx by auto. cbn [iidx]. now rewrite app_nil_r.
Qed.
Lemma undots_nd e l : nodots l -> undots e l = l ++ repeat Sl e.
Proof. induction 1 as [|[] l H _ IH]; cbn [undots app]; auto; try (f_equal; auto); now destruct H. Qed.
Lemma read_r v P D a dim : shp v = P ++ D -> glen D dim ->
  exists r, np_index (repeat Nw a ++ repeat Sl (length P) ++ repeat Nw (dim - length D)) v = Ok r /\
    shp r = repeat 1%nat a ++ P ++ grp D dim /\
    forall z p d, length z = a -> length p = length P -> length d = dim -> el r (z ++ p ++ d) = el v (p ++ ung D d).
Proof.
  intros S G.
  assert (U : undots (length D) (repeat Nw a ++ repeat Sl (length P) ++ repeat Nw (dim - length D)) =
              repeat Nw a ++ repeat Sl (length P) ++ gsel (length D) dim ++ []).
  { rewrite undots_nd by (repeat apply nodots_app; auto using nodots_nw, nodots_sl). rewrite <- !app_assoc, app_nil_r. do 2 f_equal.
    destruct G as [->|<-]; cbn [length].
    - rewrite Nat.sub_0_r, app_nil_r. reflexivity.
    - rewrite Nat.sub_diag. destruct D; reflexivity. }
  unfold np_index. rewrite !count_sl_app, !count_sl_nw, count_sl_sl. unfold ndim. rewrite S, app_length.
  replace (Nat.ltb _ _) with false by (symmetry; apply Nat.ltb_ge; lia).
  replace (length P + length D - (0 + (length P + 0)))%nat with (length D) by lia. rewrite U.
  eexists. split; [reflexivity|]. cbn [shp el]. split.
  - rewrite ishape_nw, ishape_sl. rewrite <- (app_nil_r D) at 2. rewrite gsel_shape by auto. cbn [ishape]. now rewrite app_nil_r.
  - intros z p d Lz Lp Ld. rewrite iidx_nw, iidx_sl by auto. rewrite <- (app_nil_r d) at 1. rewrite gsel_idx by auto. cbn [iidx]. now rewrite app_nil_r.
Qed.

(** *** the contraction as a sum over the unpinned axes *)
Lemma clamp_stored m : forall X k, single_at m X -> clamp X (stored m k) = clamp X k.
Proof.
  induction m as [|[f|] m IH]; intros [|s X] [|i k] H; cbn [single_at stored clamp] in *; auto; try tauto.
  - destruct H as [-> H]. rewrite IH by auto. reflexivity.
  - now rewrite IH.
Qed.
Lemma deltas_ext m : forall x x' n, length x = length x' -> (forall j f, nth_error m j = Some (Some f) -> nth j x O = nth j x' O) -> deltas m x n = deltas m x' n.
Proof.
  induction m as [|[f|] m IH]; intros [|k x] [|k' x'] n L H; cbn [deltas] in *; auto; try discriminate.
  - assert (k = k') as -> by apply (H O f eq_refl). rewrite (IH x x'); auto. intros j g Hj. exact (H (S j) g Hj).
  - apply IH; auto. intros j g Hj. exact (H (S j) g Hj).
Qed.
Lemma contract ms X N No m (G S : idx -> R) :
  posl N -> single_at ms X -> NoDup (targets ms) -> Forall (fun f => f < length N)%nat (targets ms) ->
  Forall2 bcompat No (gx_ ms X N) -> In m (indices N) ->
  (forall j f, nth_error ms j = Some (Some f) -> (nth j No 1 <= nth j (gx_ ms X N) 1)%nat) ->
  Rsum (fun k => G (clamp No k) * (S (stored ms (clamp (gx_ ms X N) k)) * deltas ms (clamp (gx_ ms X N) k) m)) (indices (bmax (gx_ ms X N) No)) =
  Rsum (fun k => G (clamp No (gx_ ms k m)) * S (clamp X k)) (indices (gx_ ms (bmax No (gx_ ms X N)) (gn_ ms X N))).
Proof.
  intros PN Sg ND T BN Hm Hk. pose proof (short_single _ _ Sg) as Sh. unfold short in Sh.
  pose proof (Forall2_length' _ _ _ BN) as LN. rewrite gx_length in LN.
  rewrite (bmax_sym (gx_ ms X N)). set (X1 := gx_ ms X N) in *. set (K := bmax No X1).
  assert (LX1 : length X1 = length X) by apply gx_length.
  assert (LK : length K = length X) by (unfold K; rewrite bmax_len; lia).
  assert (Hj : forall j f, nth_error ms j = Some (Some f) -> (j < length X)%nat /\ (f < length N)%nat /\ nth j X1 O = nth f N O /\ nth j K O = nth f N O).
  { intros j f H. assert (Lj : (j < length X)%nat). { assert (nth_error ms j <> None) by congruence. apply nth_error_Some in H0. lia. }
    assert (Tf : (f < length N)%nat). { eapply Forall_forall in T; [exact T|]. apply In_targets. eauto. }
    assert (E : nth j X1 O = nth f N O) by (unfold X1; rewrite (nth_gx ms X N j f); auto).
    repeat split; auto. unfold K. rewrite nth_bmax by lia. specialize (Hk j f H).
    rewrite (nth_indep No 1%nat O), (nth_indep X1 1%nat O) in Hk by lia. lia. }
  transitivity (Rsum (fun k => G (clamp No k) * S (clamp X (stored ms k)) * deltas ms k m) (indices K)).
  - apply Rsum_ext. intros k Ik. pose proof (indices_length _ _ Ik) as Lk.
    assert (E1 : stored ms (clamp X1 k) = clamp X (stored ms k)).
    { unfold X1. rewrite <- (gx_msizes ms X N []) by auto. rewrite app_nil_r. now apply stored_clamp. }
    rewrite E1. rewrite (deltas_ext ms (clamp X1 k) k).
    + ring.
    + rewrite clamp_length. lia.
    + intros j f H. destruct (Hj j f H) as (Lj & Lf & EX & EK). rewrite nth_clamp by lia. apply clampi_lt. rewrite EX, <- EK. apply in_nth; auto. lia.
  - rewrite (Rsum_pin ms K (gn_ ms X N) (fun k => G (clamp No k) * S (clamp X (stored ms k)))); [|lia| |].
    + apply Rsum_ext. intros k Ik. rewrite gx_stored_id, clamp_stored by auto. reflexivity.
    + apply Forall_forall. intros f Hf. apply gn_single; auto. exact (proj1 (Forall_forall _ _) T f Hf).
    + intros j f H. destruct (Hj j f H) as (Lj & Lf & EX & EK). rewrite EK. now apply in_nth.
Qed.

(** *** composed maps *)
Definition rel_at (n n' : idx) (a b : option nat) : Prop :=
  match a, b with None, None => True | Some j, Some g => nth j n O = nth g n' O | _, _ => False end.
Lemma deltas_rel n n' m m' : Forall2 (rel_at n n') m m' -> forall x, deltas m x n = deltas m' x n'.
Proof.
  induction 1 as [|a b m m' H _ IH]; intros x; [destruct x; reflexivity|].
  destruct a, b; cbn in H; try tauto; destruct x; cbn [deltas]; auto. rewrite H, IH. reflexivity.
Qed.
Definition pat (a b : option nat) : Prop := match a, b with None, None | Some _, Some _ => True | _, _ => False end.
Lemma stored_rel m m' : Forall2 pat m m' -> forall x, stored m x = stored m' x.
Proof. induction 1 as [|a b m m' H _ IH]; intros x; auto. destruct a, b; cbn in H; try tauto; destruct x; cbn [stored]; auto; now rewrite IH. Qed.
Lemma single_rel m m' : Forall2 pat m m' -> forall X, single_at m X -> single_at m' X.
Proof. induction 1 as [|a b m m' H _ IH]; intros X; auto. destruct a, b; cbn in H; try tauto; destruct X; cbn [single_at]; auto. intros [? ?]; auto. Qed.
Lemma gx_rel N N' m m' : Forall2 (rel_at N N') m m' -> forall X, gx_ m X N = gx_ m' X N'.
Proof. induction 1 as [|a b m m' H _ IH]; intros X; auto. destruct a, b; cbn in H; try tauto; destruct X; cbn [gx_]; auto; now rewrite IH, ?H. Qed.
Definition link (ms : amap) (a b : option nat) : Prop :=
  match a, b with None, None => True | Some j, Some g => nth_error ms j = Some (Some g) | _, _ => False end.
Lemma compose_ok ms mo : chained ms mo -> exists m, compose_mappings ms mo = Ok m /\ Forall2 (link ms) mo m.
Proof.
  unfold compose_mappings, chained. induction mo as [|[j|] mo IH]; intros C; cbn [rmapM targets] in *.
  - exists []. split; auto.
  - destruct (C j (or_introl eq_refl)) as (g & Hg). rewrite Hg. cbn [rbind]. destruct IH as (m & Em & Hm). { intros; apply C; right; auto. }
    cbn beta in Em. rewrite Em. exists (Some g :: m). split; [reflexivity|]. constructor; auto.
  - cbn [rbind]. destruct IH as (m & Em & Hm); auto. cbn beta in Em. rewrite Em. exists (None :: m). split; [reflexivity|]. constructor; cbn; auto.
Qed.
Lemma link_In ms mo m : Forall2 (link ms) mo m -> forall g, In g (targets m) -> exists j, In j (targets mo) /\ nth_error ms j = Some (Some g).
Proof.
  induction 1 as [|a b mo m H _ IH]; intros g; cbn [targets]; [intros []|]. destruct a, b; cbn in H; try tauto; cbn [targets].
  - intros [->|I]; [eauto with datatypes|]. destruct (IH g I) as (j & Hj & E). exists j. cbn; auto.
  - exact (IH g).
Qed.
Lemma targets_inj ms : NoDup (targets ms) -> forall j j' g, nth_error ms j = Some (Some g) -> nth_error ms j' = Some (Some g) -> j = j'.
Proof.
  induction ms as [|[f|] ms IH]; intros ND j j' g H H'; [destruct j; discriminate| |].
  - apply NoDup_targets in ND as [Nf ND]. destruct j as [|j], j' as [|j']; cbn in H, H'; auto.
    + injection H as ->. exfalso. apply Nf, In_targets. eauto.
    + injection H' as ->. exfalso. apply Nf, In_targets. eauto.
    + f_equal. eauto.
  - destruct j as [|j], j' as [|j']; cbn in H, H'; try discriminate. f_equal. eauto.
Qed.
Lemma link_NoDup ms mo m : NoDup (targets ms) -> Forall2 (link ms) mo m -> NoDup (targets mo) -> NoDup (targets m).
Proof.
  intros NS. induction 1 as [|a b mo m H F IH]; intros ND; cbn [targets]; auto. destruct a as [j|], b as [g|]; cbn in H; try tauto.
  apply NoDup_targets in ND as [Nj ND]. cbn [targets]. constructor; auto. intros I. destruct (link_In _ _ _ F g I) as (j' & I' & E).
  rewrite (targets_inj ms NS j j' g) in Nj; auto.
Qed.
Lemma link_Forall (P : nat -> Prop) ms mo m : Forall P (targets ms) -> Forall2 (link ms) mo m -> Forall P (targets m).
Proof.
  intros F L. apply Forall_forall. intros g I. destruct (link_In _ _ _ L g I) as (j & _ & E).
  eapply Forall_forall in F; [exact F|]. apply In_targets. eauto.
Qed.
Lemma link_pat ms mo m : Forall2 (link ms) mo m -> Forall2 pat mo m.
Proof. induction 1 as [|a b mo m H _ IH]; constructor; auto. destruct a, b; cbn in *; tauto. Qed.
Lemma link_rel ms n n' mo m : (forall j g, In j (targets mo) -> nth_error ms j = Some (Some g) -> nth j n O = nth g n' O) ->
  Forall2 (link ms) mo m -> Forall2 (rel_at n n') mo m.
Proof.
  intros Hn. induction 1 as [|a b mo m H _ IH]; constructor.
  - destruct a, b; cbn in *; auto.
  - apply IH. intros j g I. apply Hn. destruct a; cbn [targets]; auto. now right.
Qed.
Lemma map_ok_link ms mo m A N r : map_ok mo A r -> NoDup (targets ms) -> Forall (fun f => f < N)%nat (targets ms) ->
  Forall2 (link ms) mo m -> map_ok m A N.
Proof.
  intros (S & ND & _) NS T L. repeat split.
  - eapply single_rel; [|exact S]. eapply link_pat; eauto.
  - eapply link_NoDup; eauto.
  - eapply link_Forall; eauto.
Qed.

(** *** the common part: swap, reshape, multiply, swap back *)
Lemma dot_values (left : bool) s o A No Do X Y N Ds dim :
  groups s X Y N Ds -> shp (tv o) = A ++ No ++ Do -> posl A -> posl No -> posl Do -> posl X -> posl Y -> posl N -> posl Ds ->
  single_at (xm s) X -> NoDup (targets (xm s)) -> Forall (fun f => f < length N)%nat (targets (xm s)) ->
  Forall2 bcompat No (gx_ (xm s) X N) -> bok Do Ds -> dim = Nat.max (length Do) (length Ds) ->
  (forall j f, nth_error (xm s) j = Some (Some f) -> (nth j No 1 <= nth j (gx_ (xm s) X N) 1)%nat) ->
  exists v0 l r v1 v2, arr_swapaxes (tv s) 0 (length X + length Y) (xm s) = Ok v0 /\
    np_index (repeat Sl (length A + length No) ++ repeat Nw (length Y + length N) ++ repeat Sl (length Do) ++ repeat Nw (dim - length Do)) (tv o) = Ok l /\
    np_index (repeat Nw (length A) ++ (if left then Dots :: repeat Nw (dim - length Ds) else repeat Sl (length X + (length Y + length N)) ++ repeat Nw (dim - length Ds))) v0 = Ok r /\
    np_bin Rmult l r = Ok v1 /\ arr_swapaxes v1 (length A) (length A + (length X + length Y)) (xm s) = Ok v2 /\
    shp v2 = A ++ gx_ (xm s) (bmax No (gx_ (xm s) X N)) (gn_ (xm s) X N) ++ Y ++ N ++ bmax Do Ds /\
    forall a k y m d, In a (indices A) -> In k (indices (gx_ (xm s) (bmax No (gx_ (xm s) X N)) (gn_ (xm s) X N))) -> In y (indices Y) -> In m (indices N) -> length d = dim ->
      el v2 (a ++ k ++ y ++ m ++ d) = el (tv o) (a ++ clamp No (gx_ (xm s) k m) ++ clamp Do d) * el (tv s) (clamp X k ++ y ++ m ++ clamp Ds d).
Proof.
  intros G So PA PNo PDo PX PY PN PDs Sg ND T BN BD Ed Hk.
  destruct (bok_glen _ _ BD) as [GD GD']. rewrite <- Ed in GD, GD'.
  assert (Sh : (length (xm s) <= length X)%nat) by (apply (short_single _ _ Sg)).
  assert (LNo : length No = length X). { apply Forall2_length' in BN. now rewrite gx_length in BN. }
  destruct (dot_core (tv s) (tv o) (xm s) A No X Y N Do Ds dim) as (v0 & E0 & S0 & F); auto.
  { exact (g_shp _ _ _ _ _ G). }
  { intros j f H. specialize (Hk j f H). assert (Lj : (j < length X)%nat). { assert (nth_error (xm s) j <> None) by congruence. apply nth_error_Some in H0. lia. }
    assert (Tf : (f < length N)%nat). { eapply Forall_forall in T; [exact T|]. apply In_targets. eauto. }
    rewrite (nth_indep (gx_ _ _ _) 1%nat O) in Hk by (rewrite gx_length; lia). rewrite (nth_gx (xm s) X N j f) in Hk by auto.
    rewrite (nth_indep N 1%nat O) by auto. exact Hk. }
  destruct (read_l (tv o) (A ++ No) Do (length Y + length N) dim) as (l & El & Sl_ & Vl); auto.
  { now rewrite <- app_assoc. }
  assert (R : exists r, np_index (repeat Nw (length A) ++ (if left then Dots :: repeat Nw (dim - length Ds) else repeat Sl (length X + (length Y + length N)) ++ repeat Nw (dim - length Ds))) v0 = Ok r /\
    shp r = repeat 1%nat (length A) ++ (gx_ (xm s) X N ++ Y ++ gn_ (xm s) X N) ++ grp Ds dim /\
    forall z p d, length z = length A -> length p = (length X + (length Y + length N))%nat -> length d = dim -> el r (z ++ p ++ d) = el v0 (p ++ ung Ds d)).
  { assert (LP : length (gx_ (xm s) X N ++ Y ++ gn_ (xm s) X N) = (length X + (length Y + length N))%nat) by (now rewrite !app_length, gx_length, gn_length).
    assert (S0' : shp v0 = (gx_ (xm s) X N ++ Y ++ gn_ (xm s) X N) ++ Ds) by (rewrite S0, <- !app_assoc; reflexivity).
    destruct left.
    - destruct (read_r_dots v0 _ Ds (length A) dim S0' GD') as (r & Er & Sr & Vr). rewrite LP in Vr. eauto.
    - destruct (read_r v0 _ Ds (length A) dim S0' GD') as (r & Er & Sr & Vr). rewrite LP in Vr, Er. eauto. }
  destruct R as (r & Er & Sr & Vr). rewrite app_length in El.
  destruct (F l r) as (v1 & v2 & E1 & E2 & S2 & V2).
  { rewrite Sl_, repeat_app, <- !app_assoc. reflexivity. }
  { intros a k y m d La Lk Ly Lm Ld. specialize (Vl (a ++ k) (y ++ m) d). rewrite <- !app_assoc in Vl. apply Vl; rewrite ?app_length; auto. }
  { rewrite Sr, <- !app_assoc. reflexivity. }
  { intros a k y m d La Lk Ly Lm Ld. specialize (Vr a (k ++ y ++ m) d). rewrite <- !app_assoc in Vr. apply Vr; rewrite ?app_length; auto. }
  exists v0, l, r, v1, v2. auto 10.
Qed.

Lemma clamp_den_x t X Y N D : groups t X Y N D -> Forall (fun f => f < length N)%nat (targets (xm t)) -> xs (den t) = gx_ (xm t) X N.
Proof. intros G T. destruct (den_groups _ _ _ _ _ G) as (-> & _). now apply gx_msizes. Qed.
Lemma clamp_den_y t X Y N D : groups t X Y N D -> Forall (fun f => f < length N)%nat (targets (ym t)) -> ys (den t) = gx_ (ym t) Y N.
Proof. intros G T. destruct (den_groups _ _ _ _ _ G) as (_ & -> & _). now apply gx_msizes. Qed.
Lemma at_den t x y n d : at_ (den t) x y n d = el (tv t) (stored (xm t) x ++ stored (ym t) y ++ n ++ d) * deltas (xm t) x (n ++ d) * deltas (ym t) y (n ++ d).
Proof. reflexivity. Qed.
Lemma in_bmax_len a b d : In d (indices (bmax a b)) -> length d = Nat.max (length a) (length b).
Proof. intros H. apply indices_length in H. now rewrite bmax_len in H. Qed.
Lemma clamp_in_len sh d r : length d = r -> glen sh r -> length (clamp sh d) = length sh.
Proof. intros L [->|H]; [reflexivity|]. rewrite clamp_length. lia. Qed.
Lemma clamp_lt sh i : posl sh -> length i = length sh -> (forall j, (j < length sh)%nat -> (nth j i O < nth j sh O \/ nth j sh O = 1)%nat) -> In (clamp sh i) (indices sh).
Proof.
  intros P L H. apply In_indices. revert i L H; induction P as [|s sh Hs P IH]; intros [|k i] L H; try discriminate; cbn [clamp]; constructor.
  - specialize (H O ltac:(cbn; lia)). cbn in H. unfold clampi. destruct (Nat.leb_spec s 1); lia.
  - apply IH; auto. intros j Hj. specialize (H (S j) ltac:(cbn; lia)). exact H.
Qed.

Lemma rel_refl n n' m : (forall f, In f (targets m) -> nth f n O = nth f n' O) -> Forall2 (rel_at n n') m m.
Proof.
  induction m as [|[f|] m IH]; intros H; constructor; cbn [targets] in H; cbn [rel_at]; auto.
  - apply H. now left.
  - apply IH. intros; apply H; now right.
Qed.
Lemma in_gn m x A K b : length x = length A -> single_at m A -> NoDup (targets m) -> Forall (fun f => f < length K)%nat (targets m) ->
  inmap m x K -> In b (indices (gn_ m A K)) -> In (gn_ m x b) (indices K).
Proof.
  intros Lx Sg ND T IM Hb. pose proof (indices_length _ _ Hb) as Lb. rewrite gn_length in Lb. pose proof (short_single _ _ Sg) as Sh. unfold short in Sh.
  apply In_indices. apply Forall2_nth_intro; [now rewrite gn_length|]. intros f Hf. rewrite gn_length in Hf.
  destruct (in_dec Nat.eq_dec f (targets m)) as [I|I].
  - apply In_targets in I as (j & Hj). rewrite (nth_gn_of m x b j f) by (auto; lia).
    clear - Hj IM Lx Sh. assert (L : (length m <= length x)%nat) by lia. clear Lx Sh. revert x j IM Hj L; induction m as [|[g|] m IH]; intros [|k x] j IM Hj L; try (destruct j; discriminate); cbn [length] in L; try lia.
    + cbn [inmap] in IM. destruct j as [|j]; cbn in *; [injection Hj as ->; tauto|]. apply IH; auto; [tauto|lia].
    + cbn [inmap] in IM. destruct j as [|j]; cbn in *; [discriminate|]. apply IH; auto. lia.
  - rewrite nth_gn by auto. rewrite <- (nth_gn m A K f I). apply in_nth; auto. rewrite gn_length. lia.
Qed.

(** *** dot_left *)
Theorem tdot_left_core_ok s o : wf s -> wf o -> to_features s -> to_features o -> contractible s o -> yd o = 0%nat ->
  (xm s = [] \/ chained (xm s) (xm o)) ->
  exists r, tdot_left_core s o = Ok r /\ wf r /\ to_features r /\ dsame (den r) (ddot_left (den s) (den o)).
Proof.
  intros Ws Wo [Tsx Tsy] [Tox _] C Hyo Hm.
  pose proof (wf_groups s Ws) as Gs. pose proof (wf_groups o Wo) as Go.
  destruct (wf_pos4 s Ws) as (PX & PY & PN & PDs). destruct (wf_pos4 o Wo) as (PA & _ & PNo & PDo).
  pose proof (wf_x s Ws) as (Sgs & NDs & _). pose proof (wf_y s Ws) as (Sgy & NDy & _).
  pose proof (wf_x o Wo) as (Sgo & NDo & _).
  destruct C as [Cn Ck Cd Cs Cx _].
  set (X := sX s) in *. set (Y := sY s) in *. set (N := sN s) in *. set (Ds := sD s) in *.
  set (A := sX o) in *. set (No := sN o) in *. set (Do := sD o) in *.
  assert (EY : sY o = []) by (apply length_zero_iff_nil; rewrite (g_y _ _ _ _ _ Go); auto).
  rewrite EY in Go.
  pose proof (g_x _ _ _ _ _ Gs) as LX. pose proof (g_y _ _ _ _ _ Gs) as LY. pose proof (g_n _ _ _ _ _ Gs) as LN. pose proof (g_d _ _ _ _ _ Gs) as LDs.
  pose proof (g_x _ _ _ _ _ Go) as LA. pose proof (g_n _ _ _ _ _ Go) as LNo. pose proof (g_d _ _ _ _ _ Go) as LDo.
  rewrite <- LN in Tsx, Tsy. rewrite <- LNo in Tox.
  assert (Xs : xs (den s) = gx_ (xm s) X N) by (eapply clamp_den_x; eauto).
  assert (Xo : xs (den o) = gx_ (xm o) A No) by (eapply clamp_den_x; eauto).
  assert (Ysd : ys (den s) = gx_ (ym s) Y N) by (eapply clamp_den_y; eauto).
  rewrite Xs in Ck, Cs, Cx.
  set (dim := Nat.max (dm s) (dm o)).
  assert (Edim : dim = Nat.max (length Do) (length Ds)) by (unfold dim; lia).
  destruct (dot_values true s o A No Do X Y N Ds dim) as (v0 & l & r & v1 & v2 & E0 & El & Er & E1 & E2 & S2 & V2); auto.
  { exact (g_shp _ _ _ _ _ Go). }
  unfold tdot_left_core. fold dim. rewrite <- LX, <- LY, <- LN, <- LA, <- LNo, <- LDs, <- LDo.
  rewrite E0. cbn [rbind]. rewrite El. cbn [rbind]. rewrite Er. cbn [rbind]. rewrite E1. cbn [rbind]. rewrite E2. cbn [rbind].
  set (X1 := gx_ (xm s) X N) in *. set (K := bmax No X1) in *. set (D := bmax Do Ds) in *.
  assert (LX1 : length X1 = length X) by apply gx_length.
  pose proof (Forall2_length' _ _ _ Ck) as LNX.
  assert (LK : length K = length No) by (unfold K; rewrite bmax_len; lia).
  assert (PX1 : posl X1) by (now apply gx_pos).
  assert (PK : posl K) by (now apply bmax_pos).
  assert (PD : posl D) by (now apply bmax_pos).
  destruct (bok_glen _ _ Cd) as [GD GD']. rewrite <- Edim in GD, GD'.
  (* the expected value, as a sum over the unpinned axes *)
  assert (Exp : forall x y m d, In x (indices (gx_ (xm o) A No)) -> In y (indices (gx_ (ym s) Y N)) -> In m (indices N) -> In d (indices D) ->
    at_ (ddot_left (den s) (den o)) x y m d =
    Rsum (fun k => el (tv o) (stored (xm o) x ++ clamp No (gx_ (xm s) k m) ++ clamp Do d) * deltas (xm o) x (clamp No (gx_ (xm s) k m))
                   * (el (tv s) (clamp X k ++ stored (ym s) y ++ m ++ clamp Ds d) * deltas (ym s) y m)) (indices (gx_ (xm s) K (gn_ (xm s) X N)))).
  { intros x y m d Hx Hy Hm' Hd. cbn [ddot_left at_]. rewrite sumR_map. pose proof (in_bmax_len _ _ _ Hd) as Ld. rewrite <- Edim in Ld.
    destruct (den_groups _ _ _ _ _ Gs) as (_ & _ & Ns_ & Ds_). destruct (den_groups _ _ _ _ _ Go) as (_ & Yo_ & No_ & Do_).
    pose proof (contract (xm s) X N No m (fun n => el (tv o) (stored (xm o) x ++ n ++ clamp Do d) * deltas (xm o) x n)
      (fun k => el (tv s) (k ++ stored (ym s) y ++ m ++ clamp Ds d) * deltas (ym s) y m) PN Sgs NDs Tsx Ck Hm' Cs) as CC.
    cbn beta in CC. fold X1 in CC. fold K in CC. rewrite <- CC. rewrite Xs, No_. fold X1. apply Rsum_ext. intros k Ik.
    pose proof (indices_length _ _ Ik) as Lk. rewrite bmax_len in Lk.
    unfold get. rewrite Xs, Xo, Ysd, Ns_, Ds_, No_, Do_. fold X1. rewrite (clamp_in (gx_ (xm o) A No)), (clamp_in (gx_ (ym s) Y N)), (clamp_in N) by auto.
    assert (LCo : length (clamp No k) = length No) by (rewrite clamp_length; lia).
    rewrite !at_den. rewrite (deltas_app (xm o)) by (now rewrite LCo).
    rewrite (deltas_app (xm s)), (deltas_app (ym s)) by (now rewrite (indices_length _ _ Hm')).
    assert (Ey : ym o = []). { pose proof (wf_y o Wo) as (Sgyo & _). rewrite EY in Sgyo. destruct (ym o) as [|[q|] ?]; cbn in Sgyo; tauto. }
    rewrite Ey. rewrite Yo_. rewrite Ey. cbn [msizes clamp stored deltas app]. ring. }
  assert (Hm' : xm s = [] \/ (xm s <> [] /\ chained (xm s) (xm o))) by (destruct (xm s) eqn:?; [left|right; split]; auto; [discriminate|destruct Hm; [discriminate|auto]]).
  clear Hm. destruct Hm' as [Em|[Em Ch]].
  - (* the gradient of the outer function has no diagonal axes *)
    assert (ME : (match xm s with [] => let! val := arr_swapaxes v2 0 (length A) (xm o) in Ok (val, []) | _ => let! m := compose_mappings (xm s) (xm o) in Ok (v2, m) end) =
      let! val := arr_swapaxes v2 0 (length A) (xm o) in Ok (val, [])) by (rewrite Em; reflexivity).
    rewrite ME. clear ME.
    assert (X1X : X1 = X) by (unfold X1; rewrite Em; reflexivity).
    assert (GK : forall k m, gx_ (xm s) k m = k) by (intros; rewrite Em; reflexivity).
    rewrite GK in S2.
    assert (V2' : forall a k y m d, In a (indices A) -> In k (indices K) -> In y (indices Y) -> In m (indices N) -> length d = dim ->
      el v2 (a ++ k ++ y ++ m ++ d) = el (tv o) (a ++ clamp No k ++ clamp Do d) * el (tv s) (clamp X k ++ y ++ m ++ clamp Ds d)).
    { intros a k y m d H1 H2 H3 H4 H5. rewrite V2 by (auto; now rewrite GK). now rewrite GK. }
    assert (Exp' : forall x y m d, In x (indices (gx_ (xm o) A No)) -> In y (indices (gx_ (ym s) Y N)) -> In m (indices N) -> In d (indices D) ->
      at_ (ddot_left (den s) (den o)) x y m d =
      Rsum (fun k => el (tv o) (stored (xm o) x ++ clamp No k ++ clamp Do d) * deltas (xm o) x (clamp No k)
                   * (el (tv s) (clamp X k ++ stored (ym s) y ++ m ++ clamp Ds d) * deltas (ym s) y m)) (indices K)).
    { intros x y m d H1 H2 H3 H4. rewrite Exp by auto. rewrite GK. apply Rsum_ext. intros k _. now rewrite GK. }
    clear V2 Exp.
    destruct (swapaxes_ok (xm o) 0 0 (length A) v2 [] A [] (K ++ Y ++ N ++ D)) as (v3 & E3 & S3 & V3); cbn [length app]; auto.
    { lia. } { apply short_single; auto. } { rewrite app_length. eapply Forall_impl; [|exact Tox]. intros; cbn beta in *; lia. }
    unfold arr_swapaxes at 1. rewrite E3. cbn [rbind]. cbn [app] in S3.
    assert (TK : Forall (fun f => f < length K)%nat (targets (xm o))) by (now rewrite LK).
    rewrite gx_app, gn_app in S3 by auto.
    assert (FK : forall f, In f (targets (xm o)) -> nth f K O = nth f No O).
    { intros f Hf. pose proof (proj1 (Forall_forall _ _) Tox f Hf) as Lf. cbn beta in Lf. specialize (Cx f Hf). unfold K. rewrite nth_bmax by lia.
      rewrite (nth_indep X1 1%nat O), (nth_indep No 1%nat O) in Cx by lia. lia. }
    assert (GA : gx_ (xm o) A K = gx_ (xm o) A No).
    { apply gx_rel, rel_refl. auto. }
    rewrite GA in S3.
    destruct (np_sum_range v3 (gx_ (xm o) A No) (gn_ (xm o) A K) (Y ++ N ++ D)) as (v4 & E4 & S4 & V4); auto.
    rewrite gx_length, gn_length, LK in E4. rewrite E4. cbn [rbind].
    destruct (Tensor_ok v4 (gx_ (xm o) A No) Y N D [] (ym s) (length A) (length Y) dim) as (t & Et & Gt & Etv & Ex & Ey); auto.
    { now rewrite gx_length. } { unfold D. now rewrite bmax_len. }
    exists t. split; [exact Et|].
    assert (PGA : posl (gx_ (xm o) A No)) by (now apply gx_pos).
    split; [|split].
    + apply (wf_of _ _ _ _ _ Gt); auto; rewrite ?Ex, ?Ey; [apply map_ok_nil|]. repeat split; auto. eapply Forall_impl; [|exact Tsy]. intros; cbn beta in *; lia.
    + split; rewrite ?Ex, ?Ey; [constructor|]. rewrite <- (g_n _ _ _ _ _ Gt). auto.
    + destruct (den_groups _ _ _ _ _ Gt) as (Xt & Yt & Nt & Dt). rewrite Ex in Xt. rewrite Ey in Yt. rewrite gx_msizes in Yt by auto. cbn [msizes] in Xt.
      destruct (den_groups _ _ _ _ _ Gs) as (_ & _ & Ns_ & Ds_). destruct (den_groups _ _ _ _ _ Go) as (_ & _ & No_ & Do_).
      unfold dsame. rewrite Xt, Yt, Nt, Dt. cbn [ddot_left xs ys ns ds]. rewrite Xo, Ysd, Ns_, Ds_, Do_.
      split; [reflexivity|]. split; [reflexivity|]. split; [reflexivity|]. split; [apply bmax_sym|].
      intros x y m d Hx Hy Hm' Hd. rewrite Exp' by auto.
      pose proof (indices_length _ _ Hx) as Lx. pose proof (indices_length _ _ Hy) as Ly. pose proof (indices_length _ _ Hm') as Lm. pose proof (indices_length _ _ Hd) as Ld.
      rewrite at_den, Ex, Ey, Etv. cbn [stored deltas].
      rewrite (deltas_app (ym s)) by (now rewrite Lm).
      rewrite (V4 x (stored (ym s) y ++ m ++ d)) by (rewrite ?app_length, ?stored_length; rewrite gx_length in *; auto; lia).
      assert (IM : inmap (xm o) x K). { apply (inmap_in (xm o) A K); auto. rewrite <- (app_nil_r K). rewrite gx_msizes by auto. now rewrite GA. }
      rewrite Rmult_1_r, <- Rsum_scal_r.
      transitivity (Rsum (fun k => el (tv o) (stored (xm o) x ++ clamp No k ++ clamp Do d) *
         (el (tv s) (clamp X k ++ stored (ym s) y ++ m ++ clamp Ds d) * deltas (ym s) y m) * deltas (xm o) x k) (indices K)).
      * rewrite gx_length in Lx. symmetry. etransitivity; [apply (Rsum_deltas (xm o) x A K (fun k => el (tv o) (stored (xm o) x ++ clamp No k ++ clamp Do d) *
         (el (tv s) (clamp X k ++ stored (ym s) y ++ m ++ clamp Ds d) * deltas (ym s) y m))); auto|].
        apply Rsum_ext. intros b Hb. pose proof (indices_length _ _ Hb) as Lb. rewrite gn_length in Lb.
        assert (LyY : length y = length Y) by (rewrite gx_length in Ly; auto).
        pose proof (V3 [] x [] (b ++ stored (ym s) y ++ m ++ d)) as V3'. cbn [app length] in V3'.
        rewrite V3' by (rewrite ?app_length, ?stored_length; auto; lia). clear V3'.
        assert (Tb : Forall (fun f => f < length b)%nat (targets (xm o))) by (now rewrite Lb, LK).
        rewrite gx_app, gn_app by auto.
        assert (Zb : forall f, In f (targets (xm o)) -> nth f b O = O).
        { intros f Hf. pose proof (proj1 (Forall_forall _ _) TK f Hf) as Lf. cbn beta in Lf. apply (in_zero (gn_ (xm o) A K)); auto; rewrite ?gn_length; auto. apply gn_single; auto. }
        rewrite gx_stored by auto.
        assert (IK : In (gn_ (xm o) x b) (indices K)) by (apply (in_gn (xm o) x A); auto).
        rewrite V2'; auto.
        { ring. } { apply (stored_in (xm o) A (No ++ [])); auto. now rewrite gx_msizes. }
        { apply (stored_in (ym s) Y (N ++ [])); auto. now rewrite gx_msizes. }
        { unfold D in Ld. rewrite bmax_len in Ld. lia. }
      * apply Rsum_ext. intros k Hk. pose proof (indices_length _ _ Hk) as Lk.
        rewrite (deltas_rel (clamp No k) k (xm o) (xm o)); [ring|].
        apply rel_refl. intros f Hf. pose proof (proj1 (Forall_forall _ _) Tox f Hf) as Lf. cbn beta in Lf.
        rewrite nth_clamp by lia. apply clampi_lt. rewrite <- FK by auto. apply in_nth; auto. lia.
  - destruct (compose_ok _ _ Ch) as (m' & Ec & Lk).
    assert (ME : (match xm s with [] => let! val := arr_swapaxes v2 0 (length A) (xm o) in Ok (val, []) | _ => let! m := compose_mappings (xm s) (xm o) in Ok (v2, m) end) = Ok (v2, m')).
    { rewrite Ec. destruct (xm s); [now destruct Em|reflexivity]. }
    rewrite ME. clear ME. cbn [rbind].
    set (KK := gx_ (xm s) K (gn_ (xm s) X N)) in *.
    destruct (np_sum_range v2 A KK (Y ++ N ++ D) S2) as (v4 & E4 & S4 & V4).
    assert (LKK : length KK = length No) by (unfold KK; rewrite gx_length; auto). rewrite LKK in E4. rewrite E4. cbn [rbind].
    destruct (Tensor_ok v4 A Y N D m' (ym s) (length A) (length Y) dim) as (t & Et & Gt & Etv & Ex & Ey); auto.
    { unfold D. now rewrite bmax_len. }
    exists t. split; [exact Et|].
    assert (Tm' : Forall (fun f => f < length N)%nat (targets m')) by (exact (link_Forall _ _ _ _ Tsx Lk)).
    assert (Eq : forall j g, In j (targets (xm o)) -> nth_error (xm s) j = Some (Some g) -> (j < length No)%nat /\ (g < length N)%nat /\ nth j No O = nth g N O).
    { intros j g Hj Hg. pose proof (proj1 (Forall_forall _ _) Tox j Hj) as Lj. cbn beta in Lj. specialize (Cs j g Hg). specialize (Cx j Hj).
      assert (Lg : (g < length N)%nat). { eapply Forall_forall in Tsx; [exact Tsx|]. apply In_targets. eauto. }
      rewrite (nth_indep X1 1%nat O), (nth_indep No 1%nat O) in Cs, Cx by lia.
      assert (nth j X1 O = nth g N O) by (unfold X1; rewrite (nth_gx (xm s) X N j g); auto; apply (short_single _ _ Sgs)). repeat split; auto. lia. }
    split; [|split].
    + apply (wf_of _ _ _ _ _ Gt); auto; rewrite ?Ex, ?Ey.
      * apply (map_ok_link (xm s) (xm o) m' A _ (length No)); auto. { repeat split; auto. } eapply Forall_impl; [|exact Tsx]. intros; cbn beta in *; lia.
      * repeat split; auto. eapply Forall_impl; [|exact Tsy]. intros; cbn beta in *; lia.
    + split; rewrite ?Ex, ?Ey; rewrite <- (g_n _ _ _ _ _ Gt); auto.
    + destruct (den_groups _ _ _ _ _ Gt) as (Xt & Yt & Nt & Dt). rewrite Ex in Xt. rewrite Ey in Yt. rewrite gx_msizes in Xt, Yt by auto.
      assert (GA : gx_ m' A N = gx_ (xm o) A No).
      { symmetry. apply gx_rel. eapply link_rel; [|exact Lk]. intros j g Hj Hg. now destruct (Eq j g Hj Hg) as (_ & _ & ?). }
      destruct (den_groups _ _ _ _ _ Gs) as (_ & _ & Ns_ & Ds_). destruct (den_groups _ _ _ _ _ Go) as (_ & _ & No_ & Do_).
      unfold dsame. rewrite Xt, Yt, Nt, Dt. cbn [ddot_left xs ys ns ds]. rewrite Xo, Ysd, Ns_, Ds_, Do_, GA.
      split; [reflexivity|]. split; [reflexivity|]. split; [reflexivity|]. split; [apply bmax_sym|].
      intros x y m d Hx Hy Hm' Hd. rewrite Exp by auto.
      pose proof (indices_length _ _ Hx) as Lx. pose proof (indices_length _ _ Hy) as Ly. pose proof (indices_length _ _ Hm') as Lm. pose proof (indices_length _ _ Hd) as Ld.
      rewrite gx_length in Lx, Ly.
      rewrite at_den, Ex, Ey, Etv. rewrite !deltas_app by (now rewrite Lm).
      rewrite <- (stored_rel (xm o) m') by (eapply link_pat; eauto).
      rewrite (V4 _ (stored (ym s) y ++ m ++ d)) by (rewrite ?app_length, ?stored_length; auto; lia).
      rewrite <- !Rsum_scal_r. apply Rsum_ext. intros k Hk.
      pose proof (indices_length _ _ Hk) as Lk'. rewrite LKK in Lk'.
      rewrite V2; auto.
      { rewrite (deltas_rel (clamp No (gx_ (xm s) k m)) m (xm o) m'); [ring|]. eapply link_rel; [|exact Lk]. intros j g Hj Hg.
        destruct (Eq j g Hj Hg) as (L1 & L2 & EE). rewrite nth_clamp by (rewrite ?gx_length; lia). rewrite (nth_gx (xm s) k m j g); auto.
        - apply clampi_lt. rewrite EE. now apply in_nth.
        - pose proof (short_single _ _ Sgs) as Sh. unfold short in Sh. lia. }
      { apply (stored_in (xm o) A (No ++ [])); auto. now rewrite gx_msizes. }
      { apply (stored_in (ym s) Y (N ++ [])); auto. now rewrite gx_msizes. }
      { unfold D in Ld. rewrite bmax_len in Ld. lia. }
Qed.

Theorem tdot_left_ok s o : wf s -> wf o -> to_features s -> to_features o -> contractible s o -> yd o = 0%nat ->
  (xm s = [] \/ chained (xm s) (xm o)) ->
  exists r, tdot_left s o = Ok r /\ wf r /\ to_features r /\ dsame (den r) (ddot_left (den s) (den o)).
Proof.
  intros. unfold tdot_left. rewrite (ct_n s o) by auto. rewrite Nat.eqb_refl. cbn [negb andb]. now apply tdot_left_core_ok.
Qed.

(** the branch that transposes [self] first *)
Lemma dsame_get a b : dsame a b -> posl (xs a) -> posl (ys a) -> posl (ns a) -> posl (ds a) ->
  forall x y n d, In (clamp (xs a) x) (indices (xs a)) -> In (clamp (ys a) y) (indices (ys a)) -> In (clamp (ns a) n) (indices (ns a)) -> In (clamp (ds a) d) (indices (ds a)) ->
  get a x y n d = get b x y n d.
Proof. intros (Ex & Ey & En & Ed & H) _ _ _ _ x y n d H1 H2 H3 H4. unfold get. rewrite <- Ex, <- Ey, <- En, <- Ed. now apply H. Qed.
Lemma clamp_in_compat a b i : Forall2 bcompat a b -> posl a -> posl b -> In i (indices (bmax a b)) -> In (clamp a i) (indices a) /\ In (clamp b i) (indices b).
Proof.
  intros C Pa Pb Hi. pose proof (Forall2_length' _ _ _ C) as L. pose proof (indices_length _ _ Hi) as Li. rewrite bmax_len in Li.
  assert (K : forall j, (j < length a)%nat -> (nth j i O < Nat.max (nth j a O) (nth j b O))%nat /\ bcompat (nth j a O) (nth j b O)).
  { intros j Hj. split; [rewrite <- nth_bmax by auto; apply in_nth; auto; rewrite bmax_len; lia|].
    clear - C Hj. revert j Hj; induction C; intros [|j] Hj; cbn in *; try lia; auto. apply IHC; lia. }
  assert (Pj : forall sh j, posl sh -> (j < length sh)%nat -> (1 <= nth j sh O)%nat) by (intros sh j P H; exact (proj1 (Forall_forall _ _) P _ (nth_In _ _ H))).
  split; apply clamp_lt; auto; try lia; intros j Hj; pose proof (Pj a j Pa ltac:(lia)); pose proof (Pj b j Pb ltac:(lia));
    destruct (K j ltac:(lia)) as [K1 [K2|[K2|K2]]]; lia.
Qed.
Lemma bok_clamp a b i : bok a b -> posl a -> posl b -> In i (indices (bmax a b)) -> In (clamp a i) (indices a) /\ In (clamp b i) (indices b).
Proof.
  intros [->|[->|H]] Pa Pb Hi.
  - cbn [bmax] in Hi. cbn. split; auto. now rewrite clamp_in.
  - rewrite bmax_nil_r in Hi. cbn. split; auto. now rewrite clamp_in.
  - now apply clamp_in_compat.
Qed.
Lemma dsame_ddot_left a a' b : dsame a a' -> posl (xs a) -> posl (ys a) -> posl (ns a) -> posl (ds a) -> posl (ns b) -> posl (ds b) ->
  Forall2 bcompat (xs a) (ns b) -> bok (ds a) (ds b) -> dsame (ddot_left a b) (ddot_left a' b).
Proof.
  intros S P1 P2 P3 P4 Q1 Q2 C D. pose proof S as (Ex & Ey & En & Ed & _).
  unfold dsame. cbn [ddot_left xs ys ns ds at_]. rewrite <- Ex, <- Ey, <- En, <- Ed. repeat (split; [reflexivity|]).
  intros x y m d Hx Hy Hm Hd. rewrite !sumR_map. apply Rsum_ext. intros k Hk. f_equal. apply dsame_get; auto.
  - now apply (clamp_in_compat _ (ns b)).
  - now rewrite clamp_in.
  - now rewrite clamp_in.
  - now apply (bok_clamp _ (ds b)).
Qed.
Theorem tdot_left_transposed s o : wf s -> wf o -> to_features s -> to_features o -> transposable s -> yd o = 0%nat ->
  xd s <> nn o -> yd s = nn o -> (ym s = [] \/ chained (ym s) (xm o)) ->
  Forall2 bcompat (sN o) (ys (den s)) -> bok (sD o) (sD s) ->
  (forall j f, nth_error (ym s) j = Some (Some f) -> nth j (sN o) 1 <= nth j (ys (den s)) 1)%nat ->
  full (xm o) (sN o) (ys (den s)) ->
  exists r, tdot_left s o = Ok r /\ wf r /\ to_features r /\ dsame (den r) (ddot_left (dtrans (den s)) (den o)).
Proof.
  intros Ws Wo Ts To Tr Hyo Nx Hy Hm Ck Cd Cs Cx. unfold tdot_left.
  replace (Nat.eqb (xd s) (nn o)) with false by (symmetry; now apply Nat.eqb_neq). rewrite Hy, Nat.eqb_refl. cbn [negb andb].
  destruct (ttranspose_ok s Ws Tr) as (t & Et & Wt & Tt & St). rewrite Et. cbn [rbind].
  pose proof St as (Sx & Sy & Sn & Sd & _). cbn [dtrans xs ys ns ds] in Sx, Sy, Sn, Sd.
  assert (M : xm t = ym s /\ xd t = yd s).
  { unfold ttranspose in Et. match type of Et with rbind ?e _ = _ => destruct e as [v|] end; [|discriminate]. cbn [rbind] in Et. unfold Tensor in Et.
    destruct (Nat.ltb _ _) in Et; [discriminate|]. injection Et as <-. cbn. auto. }
  destruct M as [Mx Md].
  assert (ED : sD t = sD s) by exact Sd.
  assert (YE : ym o = []). { pose proof (wf_y o Wo) as (Sg & _). assert (E : sY o = []) by (apply length_zero_iff_nil; rewrite (g_y _ _ _ _ _ (wf_groups o Wo)); auto).
    rewrite E in Sg. destruct (ym o) as [|[?|] ?]; cbn in Sg; tauto. }
  assert (Cc : contractible t o).
  { constructor; rewrite ?Sx, ?Mx, ?ED; auto. - congruence. - rewrite YE. intros f []. }
  destruct (tdot_left_core_ok t o Wt Wo (Tt Ts) To Cc Hyo) as (r & Er & Wr & Tr' & Sr); [now rewrite Mx|].
  exists r. split; [exact Er|]. split; [exact Wr|]. split; [exact Tr'|].
  eapply dsame_trans; [exact Sr|]. destruct (wf_den_pos t Wt) as (P1 & P2 & P3 & P4). destruct (wf_den_pos o Wo) as (_ & _ & Q3 & Q4).
  apply dsame_ddot_left; auto.
  - apply bcompat_sym. exact (ct_k t o Cc).
  - apply bok_sym. exact (ct_d t o Cc).
Qed.

(** *** dot_right *)
Theorem tdot_right_zero s o : is_zero0 (tv o) = true -> tdot_right s o = Ok (PNum 0).
Proof. intros H. unfold tdot_right. now rewrite H. Qed.

Theorem tdot_right_ok s o : wf s -> wf o -> to_features s -> to_features o -> contractible s o -> yd s = 0%nat ->
  is_zero0 (tv o) = false ->
  chained (xm s) (xm o) -> chained (xm s) (ym o) -> (xm s = [] -> xm o = [] /\ ym o = []) ->
  exists r, tdot_right s o = Ok (PT r) /\ wf r /\ to_features r /\ dsame (den r) (ddot_right (den s) (den o)).
Proof.
  intros Ws Wo [Tsx _] [Tox Toy] C Hys Hz Chx Chy Hm.
  pose proof (wf_groups s Ws) as Gs. pose proof (wf_groups o Wo) as Go.
  destruct (wf_pos4 s Ws) as (PX & _ & PN & PDs). destruct (wf_pos4 o Wo) as (PA & PB & PNo & PDo).
  pose proof (wf_x s Ws) as (Sgs & NDs & _).
  pose proof (wf_x o Wo) as (Sgo & NDo & _). pose proof (wf_y o Wo) as (Sgp & NDp & _).
  destruct C as [Cn Ck Cd Cs Cx Cy].
  assert (EY : sY s = []) by (apply length_zero_iff_nil; rewrite (g_y _ _ _ _ _ Gs); auto).
  rewrite EY in Gs.
  set (X := sX s) in *. set (N := sN s) in *. set (Ds := sD s) in *.
  set (A := sX o) in *. set (B := sY o) in *. set (No := sN o) in *. set (Do := sD o) in *.
  pose proof (g_x _ _ _ _ _ Gs) as LX. pose proof (g_n _ _ _ _ _ Gs) as LN. pose proof (g_d _ _ _ _ _ Gs) as LDs.
  pose proof (g_x _ _ _ _ _ Go) as LA. pose proof (g_y _ _ _ _ _ Go) as LB. pose proof (g_n _ _ _ _ _ Go) as LNo. pose proof (g_d _ _ _ _ _ Go) as LDo.
  rewrite <- LN in Tsx. rewrite <- LNo in Tox, Toy.
  assert (Xs : xs (den s) = gx_ (xm s) X N) by (eapply clamp_den_x; eauto).
  assert (Xo : xs (den o) = gx_ (xm o) A No) by (eapply clamp_den_x; eauto).
  assert (Yo : ys (den o) = gx_ (ym o) B No) by (eapply clamp_den_y; eauto).
  rewrite Xs in Ck, Cs, Cx, Cy.
  set (dim := Nat.max (dm s) (dm o)).
  assert (Edim : dim = Nat.max (length Do) (length Ds)) by (unfold dim; lia).
  assert (PAB : posl (A ++ B)) by (apply pos_app; auto).
  destruct (dot_values false s o (A ++ B) No Do X [] N Ds dim) as (v0 & l & r & v1 & v2 & E0 & El & Er & E1 & E2 & S2 & V2); auto.
  { rewrite <- app_assoc. exact (g_shp _ _ _ _ _ Go). } { constructor. }
  cbn [length] in E0, El, Er, E2. rewrite Nat.add_0_r in E0, E2. rewrite app_length in El, Er, E2. cbn [Nat.add] in El, Er.
  unfold tdot_right. fold dim. rewrite Hz. cbn zeta. rewrite Hys. replace (Nat.eqb (xd s) (nn o)) with true by (symmetry; now apply Nat.eqb_eq). cbn [Nat.eqb negb].
  rewrite <- LX, <- LN, <- LA, <- LB, <- LNo, <- LDs, <- LDo.
  rewrite E0. cbn [rbind]. rewrite El. cbn [rbind]. rewrite Er. cbn [rbind]. rewrite E1. cbn [rbind]. rewrite E2. cbn [rbind].
  set (X1 := gx_ (xm s) X N) in *. set (K := bmax No X1) in *. set (D := bmax Do Ds) in *.
  assert (LX1 : length X1 = length X) by apply gx_length.
  pose proof (Forall2_length' _ _ _ Ck) as LNX.
  assert (LK : length K = length No) by (unfold K; rewrite bmax_len; lia).
  assert (PX1 : posl X1) by (now apply gx_pos).
  assert (PD : posl D) by (now apply bmax_pos).
  destruct (bok_glen _ _ Cd) as [GD GD']. rewrite <- Edim in GD, GD'.
  set (KK := gx_ (xm s) K (gn_ (xm s) X N)) in *.
  assert (Exp : forall x y m d, In x (indices (gx_ (xm o) A No)) -> In y (indices (gx_ (ym o) B No)) -> In m (indices N) -> In d (indices D) ->
    at_ (ddot_right (den s) (den o)) x y m d =
    Rsum (fun k => el (tv o) (stored (xm o) x ++ stored (ym o) y ++ clamp No (gx_ (xm s) k m) ++ clamp Do d) * deltas (xm o) x (clamp No (gx_ (xm s) k m)) * deltas (ym o) y (clamp No (gx_ (xm s) k m))
                   * el (tv s) (clamp X k ++ m ++ clamp Ds d)) (indices KK)).
  { intros x y m d Hx Hy Hm' Hd. cbn [ddot_right at_]. rewrite sumR_map. pose proof (in_bmax_len _ _ _ Hd) as Ld. rewrite <- Edim in Ld.
    destruct (den_groups _ _ _ _ _ Gs) as (_ & Ys_ & Ns_ & Ds_). destruct (den_groups _ _ _ _ _ Go) as (_ & _ & No_ & Do_).
    pose proof (contract (xm s) X N No m (fun n => el (tv o) (stored (xm o) x ++ stored (ym o) y ++ n ++ clamp Do d) * deltas (xm o) x n * deltas (ym o) y n)
      (fun k => el (tv s) (k ++ m ++ clamp Ds d)) PN Sgs NDs Tsx Ck Hm' Cs) as CC.
    cbn beta in CC. fold X1 in CC. fold K in CC. fold KK in CC. rewrite <- CC. rewrite Xs, No_. fold X1. apply Rsum_ext. intros k Ik.
    pose proof (indices_length _ _ Ik) as Lk. rewrite bmax_len in Lk.
    unfold get. rewrite Xs, Xo, Yo, Ns_, Ds_, No_, Do_. fold X1. rewrite (clamp_in (gx_ (xm o) A No)), (clamp_in (gx_ (ym o) B No)), (clamp_in N) by auto.
    assert (LCo : length (clamp No k) = length No) by (rewrite clamp_length; lia).
    rewrite !at_den. rewrite (deltas_app (xm o)), (deltas_app (ym o)) by (now rewrite LCo).
    rewrite (deltas_app (xm s)) by (now rewrite (indices_length _ _ Hm')).
    assert (Ey : ym s = []). { pose proof (wf_y s Ws) as (Sgyo & _). rewrite EY in Sgyo. destruct (ym s) as [|[q|] ?]; cbn in Sgyo; tauto. }
    rewrite Ys_. rewrite Ey. cbn [msizes clamp stored deltas app]. ring. }
  destruct (compose_ok _ _ Chx) as (m1 & Ec1 & Lk1). destruct (compose_ok _ _ Chy) as (m2 & Ec2 & Lk2).
  assert (ME : match xm s with [] => let! val := arr_swapaxes v2 0 (length A + length B) (xm o) in arr_swapaxes_cross val (length A) (xm o) (ym o) | _ => Ok v2 end = Ok v2).
  { destruct (xm s); [|reflexivity]. destruct (Hm eq_refl) as [-> ->]. reflexivity. }
  rewrite ME. clear ME. cbn [rbind]. rewrite Ec1, Ec2. cbn [rbind].
  destruct (np_sum_range v2 (A ++ B) KK (N ++ D) S2) as (v4 & E4 & S4 & V4).
  assert (LKK : length KK = length No) by (unfold KK; rewrite gx_length; auto). rewrite LKK, app_length in E4. rewrite E4. cbn [rbind].
  destruct (Tensor_ok v4 A B N D m1 m2 (length A) (length B) dim) as (t & Et & Gt & Etv & Ex & Ey); auto.
  { now rewrite S4, <- app_assoc. } { unfold D. now rewrite bmax_len. }
  rewrite Et. cbn [rbind]. exists t. split; [reflexivity|].
  assert (T1 : Forall (fun f => f < length N)%nat (targets m1)) by (exact (link_Forall _ _ _ _ Tsx Lk1)).
  assert (T2 : Forall (fun f => f < length N)%nat (targets m2)) by (exact (link_Forall _ _ _ _ Tsx Lk2)).
  assert (Eq : forall j g, (In j (targets (xm o)) \/ In j (targets (ym o))) -> nth_error (xm s) j = Some (Some g) -> (j < length No)%nat /\ (g < length N)%nat /\ nth j No O = nth g N O).
  { intros j g Hj Hg.
    assert (Lj : (j < length No)%nat) by (destruct Hj as [Hj|Hj]; [exact (proj1 (Forall_forall _ _) Tox j Hj)|exact (proj1 (Forall_forall _ _) Toy j Hj)]).
    assert (CC : (nth j X1 1 <= nth j No 1)%nat) by (destruct Hj as [Hj|Hj]; [exact (Cx j Hj)|exact (Cy j Hj)]).
    specialize (Cs j g Hg).
    assert (Lg : (g < length N)%nat). { eapply Forall_forall in Tsx; [exact Tsx|]. apply In_targets. eauto. }
    rewrite (nth_indep X1 1%nat O), (nth_indep No 1%nat O) in Cs, CC by lia.
    assert (nth j X1 O = nth g N O) by (unfold X1; rewrite (nth_gx (xm s) X N j g); auto; apply (short_single _ _ Sgs)). repeat split; auto. lia. }
  assert (Eqn : forall k m, length k = length No -> In m (indices N) -> forall j g, (In j (targets (xm o)) \/ In j (targets (ym o))) -> nth_error (xm s) j = Some (Some g) ->
     nth j (clamp No (gx_ (xm s) k m)) O = nth g m O).
  { intros k m Lk Hm' j g Hj Hg. destruct (Eq j g Hj Hg) as (L1 & L2 & EE). rewrite nth_clamp by (rewrite ?gx_length; lia). rewrite (nth_gx (xm s) k m j g); auto.
    - apply clampi_lt. rewrite EE. now apply in_nth.
    - pose proof (short_single _ _ Sgs) as Sh. unfold short in Sh. lia. }
  split; [|split].
  - apply (wf_of _ _ _ _ _ Gt); auto; rewrite ?Ex, ?Ey.
    + apply (map_ok_link (xm s) (xm o) m1 A _ (length No)); auto. { repeat split; auto. } eapply Forall_impl; [|exact Tsx]. intros; cbn beta in *; lia.
    + apply (map_ok_link (xm s) (ym o) m2 B _ (length No)); auto. { repeat split; auto. } eapply Forall_impl; [|exact Tsx]. intros; cbn beta in *; lia.
  - split; rewrite ?Ex, ?Ey; rewrite <- (g_n _ _ _ _ _ Gt); auto.
  - destruct (den_groups _ _ _ _ _ Gt) as (Xt & Yt & Nt & Dt). rewrite Ex in Xt. rewrite Ey in Yt. rewrite gx_msizes in Xt, Yt by auto.
    assert (GA : gx_ m1 A N = gx_ (xm o) A No).
    { symmetry. apply gx_rel. eapply link_rel; [|exact Lk1]. intros j g Hj Hg. now destruct (Eq j g (or_introl Hj) Hg) as (_ & _ & ?). }
    assert (GB : gx_ m2 B N = gx_ (ym o) B No).
    { symmetry. apply gx_rel. eapply link_rel; [|exact Lk2]. intros j g Hj Hg. now destruct (Eq j g (or_intror Hj) Hg) as (_ & _ & ?). }
    destruct (den_groups _ _ _ _ _ Gs) as (_ & _ & Ns_ & Ds_). destruct (den_groups _ _ _ _ _ Go) as (_ & _ & No_ & Do_).
    unfold dsame. rewrite Xt, Yt, Nt, Dt. cbn [ddot_right xs ys ns ds]. rewrite Xo, Yo, Ns_, Ds_, Do_, GA, GB.
    split; [reflexivity|]. split; [reflexivity|]. split; [reflexivity|]. split; [apply bmax_sym|].
    intros x y m d Hx Hy Hm' Hd. rewrite Exp by auto.
    pose proof (indices_length _ _ Hx) as Lx. pose proof (indices_length _ _ Hy) as Ly. pose proof (indices_length _ _ Hm') as Lm. pose proof (indices_length _ _ Hd) as Ld.
    rewrite gx_length in Lx, Ly.
    rewrite at_den, Ex, Ey, Etv. rewrite !deltas_app by (now rewrite Lm).
    rewrite <- (stored_rel (xm o) m1) by (eapply link_pat; eauto). rewrite <- (stored_rel (ym o) m2) by (eapply link_pat; eauto).
    rewrite (app_assoc (stored (xm o) x)).
    rewrite (V4 _ (m ++ d)) by (rewrite ?app_length, ?stored_length; auto; lia).
    rewrite <- !Rsum_scal_r. apply Rsum_ext. intros k Hk.
    pose proof (indices_length _ _ Hk) as Lk'. rewrite LKK in Lk'.
    pose proof (V2 (stored (xm o) x ++ stored (ym o) y) k [] m d) as V2'. cbn [app] in V2'. rewrite V2'; auto.
    { rewrite (deltas_rel (clamp No (gx_ (xm s) k m)) m (xm o) m1), (deltas_rel (clamp No (gx_ (xm s) k m)) m (ym o) m2).
      - rewrite <- app_assoc. ring.
      - eapply link_rel; [|exact Lk2]. intros j g Hj Hg. apply Eqn; auto.
      - eapply link_rel; [|exact Lk1]. intros j g Hj Hg. apply Eqn; auto. }
    { apply in_app2; [now rewrite stored_length|]. split.
      - apply (stored_in (xm o) A (No ++ [])); auto. now rewrite gx_msizes.
      - apply (stored_in (ym o) B (No ++ [])); auto. now rewrite gx_msizes. }
    { now left. }
    { unfold D in Ld. rewrite bmax_len in Ld. lia. }
Qed.
