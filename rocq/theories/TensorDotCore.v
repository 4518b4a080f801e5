(** Contractions: the array computations shared by dot_left and dot_right. *)
From Verif Require Import Prelude DenseModel AnalyticSpec DenseProofs NDArray NDProofs TensorModel TensorSpec TensorSpecOps TensorLemmas TensorBasic TensorSum TensorSumMain TensorBin TensorArith.
From Coq Require Import Reals Lra.
Import List ListNotations.
Open Scope R_scope.

Lemma nth_gx_un m : forall x n j, (forall f, nth_error m j <> Some (Some f)) -> nth j (gx_ m x n) O = nth j x O.
Proof.
  induction m as [|[g|] m IH]; intros [|k x] n j H; destruct j as [|j]; cbn [gx_ nth]; auto;
    try (exfalso; now apply (H g)); apply IH; intros f; apply (H f).
Qed.
Lemma mapped_dec (m : amap) j : (exists f, nth_error m j = Some (Some f)) \/ (forall f, nth_error m j <> Some (Some f)).
Proof. destruct (nth_error m j) as [[f|]|]; [left; eauto|right; congruence|right; congruence]. Qed.
Lemma nth_gn_of m x n j f : NoDup (targets m) -> nth_error m j = Some (Some f) -> (length m <= length x)%nat -> (f < length n)%nat ->
  nth f (gn_ m x n) O = nth j x O.
Proof.
  intros ND H L Hf. revert x j H L; induction m as [|[g|] m IH]; intros x j H L; [destruct j; discriminate| |].
  - destruct x as [|k x]; [cbn in L; lia|]. cbn [gn_]. apply NoDup_targets in ND as [Ng ND]. destruct j as [|j]; cbn [nth_error nth] in *.
    + injection H as ->. apply nth_upd_eq. now rewrite gn_length.
    + rewrite nth_upd_neq; [apply IH; auto; cbn in L; lia|]. intros ->. apply Ng. apply In_targets. eauto.
  - destruct x as [|k x]; [cbn in L; lia|]. cbn [gn_ targets] in *. destruct j as [|j]; cbn [nth_error nth] in *; [discriminate|].
    apply IH; auto. cbn in L; lia.
Qed.
Lemma gn_back m K X N : NoDup (targets m) -> (length m <= length K)%nat ->
  (forall j f, nth_error m j = Some (Some f) -> nth j K O = nth f N O) -> gn_ m K (gn_ m X N) = N.
Proof.
  intros ND L H. apply list_eq_nth; [now rewrite !gn_length|]. intros g Hg. rewrite !gn_length in Hg.
  destruct (in_dec Nat.eq_dec g (targets m)) as [I|I].
  - apply In_targets in I as (j & Hj). rewrite (nth_gn_of m K (gn_ m X N) j g) by (auto; now rewrite gn_length). auto.
  - now rewrite !nth_gn by auto.
Qed.

(** the product of the two reshaped arrays *)
Lemma dot_product l r ov v0 A No Xs Y Ns Do Ds dim :
  posl A -> posl No -> posl Xs -> posl Y -> posl Ns -> posl Do -> posl Ds ->
  Forall2 bcompat No Xs -> bok Do Ds -> dim = Nat.max (length Do) (length Ds) ->
  shp l = A ++ No ++ repeat 1%nat (length Y) ++ repeat 1%nat (length Ns) ++ grp Do dim ->
  (forall a k y m d, length a = length A -> length k = length No -> length y = length Y -> length m = length Ns -> length d = dim ->
    el l (a ++ k ++ y ++ m ++ d) = el ov (a ++ k ++ ung Do d)) ->
  shp r = repeat 1%nat (length A) ++ Xs ++ Y ++ Ns ++ grp Ds dim ->
  (forall a k y m d, length a = length A -> length k = length Xs -> length y = length Y -> length m = length Ns -> length d = dim ->
    el r (a ++ k ++ y ++ m ++ d) = el v0 (k ++ y ++ m ++ ung Ds d)) ->
  exists v, np_bin Rmult l r = Ok v /\ shp v = A ++ bmax No Xs ++ Y ++ Ns ++ bmax Do Ds /\
    forall a k y m d, In a (indices A) -> length k = length No -> In y (indices Y) -> length m = length Ns -> length d = dim ->
      el v (a ++ k ++ y ++ m ++ d) = el ov (a ++ clamp No k ++ clamp Do d) * el v0 (clamp Xs k ++ y ++ clamp Ns m ++ clamp Ds d).
Proof.
  intros PA PN PX PY PNs PDo PDs BN BD -> Sl Vl Sr Vr.
  destruct (bok_glen _ _ BD) as [GD GD']. pose proof (Forall2_length' _ _ _ BN) as LN.
  destruct (np_bin_ok Rmult l r) as (v & Ev & Sv & Vv).
  { rewrite Sl, Sr. apply Forall2_app; [apply bcompat_sym, bcompat_ones|]. apply Forall2_app; [auto|]. apply Forall2_app; [apply bcompat_ones|].
    apply Forall2_app; [apply bcompat_ones|]. now apply bok_grp. }
  { rewrite Sl. repeat (apply pos_app; split); auto using pos_ones, grp_pos. }
  { rewrite Sr. repeat (apply pos_app; split); auto using pos_ones, grp_pos. }
  exists v. split; [exact Ev|]. split.
  - rewrite Sv, Sl, Sr. rewrite !bmax_app by (rewrite ?repeat_length, ?grp_length; auto). rewrite (bmax_sym A), !bmax_ones, bmax_grp by auto. reflexivity.
  - intros a k y m d Ha Hk Hy Hm Hd. pose proof (indices_length _ _ Ha) as La. pose proof (indices_length _ _ Hy) as Ly.
    rewrite Vv by (unfold ndim; rewrite Sl, !app_length, !repeat_length, grp_length by auto; lia).
    rewrite Sl, Sr. rewrite !clamp_app by (rewrite ?repeat_length; congruence).
    rewrite Vl, Vr by (rewrite clamp_length, ?repeat_length, ?grp_length by auto; lia).
    rewrite !ung_clamp. rewrite !(clamp_in A), !(clamp_in Y) by auto. reflexivity.
Qed.

Lemma clamp_ones_len n i : length i = n -> length (clamp (repeat 1%nat n) i) = n.
Proof. intros H. rewrite clamp_length, repeat_length. lia. Qed.

(** swap, multiply, swap back *)
Definition zero_at (ms : amap) (k : idx) : Prop := forall j f, nth_error ms j = Some (Some f) -> nth j k O = O.
Lemma dot_core sv ov ms A No X Y N Do Ds dim :
  shp sv = X ++ Y ++ N ++ Ds -> posl A -> posl No -> posl X -> posl Y -> posl N -> posl Do -> posl Ds ->
  single_at ms X -> NoDup (targets ms) -> Forall (fun f => f < length N)%nat (targets ms) ->
  Forall2 bcompat No (gx_ ms X N) -> bok Do Ds -> dim = Nat.max (length Do) (length Ds) ->
  (forall j f, nth_error ms j = Some (Some f) -> (nth j No 1 <= nth f N 1)%nat) ->
  exists v0, arr_swapaxes sv 0 (length X + length Y) ms = Ok v0 /\ shp v0 = gx_ ms X N ++ Y ++ gn_ ms X N ++ Ds /\
  forall l r,
  shp l = A ++ No ++ repeat 1%nat (length Y) ++ repeat 1%nat (length N) ++ grp Do dim ->
  (forall a k y m d, length a = length A -> length k = length No -> length y = length Y -> length m = length N -> length d = dim ->
    el l (a ++ k ++ y ++ m ++ d) = el ov (a ++ k ++ ung Do d)) ->
  shp r = repeat 1%nat (length A) ++ gx_ ms X N ++ Y ++ gn_ ms X N ++ grp Ds dim ->
  (forall a k y m d, length a = length A -> length k = length X -> length y = length Y -> length m = length N -> length d = dim ->
    el r (a ++ k ++ y ++ m ++ d) = el v0 (k ++ y ++ m ++ ung Ds d)) ->
  exists v1 v2, np_bin Rmult l r = Ok v1 /\ arr_swapaxes v1 (length A) (length A + (length X + length Y)) ms = Ok v2 /\
    shp v2 = A ++ gx_ ms (bmax No (gx_ ms X N)) (gn_ ms X N) ++ Y ++ N ++ bmax Do Ds /\
    forall a k y m d, In a (indices A) -> In k (indices (gx_ ms (bmax No (gx_ ms X N)) (gn_ ms X N))) -> In y (indices Y) -> In m (indices N) -> length d = dim ->
      el v2 (a ++ k ++ y ++ m ++ d) = el ov (a ++ clamp No (gx_ ms k m) ++ clamp Do d) * el sv (clamp X k ++ y ++ m ++ clamp Ds d).
Proof.
  intros Ss PA PNo PX PY PN PDo PDs Sg ND T BN BD Ed Hk.
  pose proof (short_single _ _ Sg) as Sh.
  destruct (swapaxes_ok ms 0 0 (length X + length Y) sv [] X Y (N ++ Ds)) as (v0 & E0 & S0 & V0); cbn [length]; auto.
  { rewrite app_length. eapply Forall_impl; [|exact T]. intros; cbn beta in *; lia. }
  exists v0. split; [exact E0|]. cbn [app] in S0. rewrite gx_app, gn_app in S0 by auto. split; [exact S0|].
  set (X1 := gx_ ms X N) in *. set (N1 := gn_ ms X N) in *.
  assert (LX1 : length X1 = length X) by apply gx_length. assert (LN1 : length N1 = length N) by apply gn_length.
  assert (PX1 : posl X1) by (now apply gx_pos). assert (PN1 : posl N1) by (now apply gn_pos).
  pose proof (Forall2_length' _ _ _ BN) as LN.
  intros l r Sl Vl Sr Vr.
  destruct (dot_product l r ov v0 A No X1 Y N1 Do Ds dim) as (v1 & E1 & S1 & V1); auto.
  { now rewrite LN1. } { rewrite LN1. exact Vl. } { rewrite LX1, LN1. exact Vr. }
  set (K := bmax No X1) in *.
  assert (LK : length K = length X) by (unfold K; rewrite bmax_len; lia).
  destruct (swapaxes_ok ms 0 (length A) (length A + (length X + length Y)) v1 A K Y (N1 ++ bmax Do Ds)) as (v2 & E2 & S2 & V2); auto.
  { lia. } { lia. } { unfold short in *. lia. } { rewrite app_length, LN1. eapply Forall_impl; [|exact T]. intros; cbn beta in *; lia. }
  exists v1, v2. split; [exact E1|]. split; [exact E2|].
  rewrite gx_app, gn_app in S2 by (rewrite LN1; auto).
  assert (HK : forall j f, nth_error ms j = Some (Some f) -> nth j K O = nth f N O).
  { intros j f Hj. assert (Lj : (j < length X)%nat). { assert (nth_error ms j <> None) by congruence. apply nth_error_Some in H. unfold short in Sh. lia. }
    assert (Tf : (f < length N)%nat). { eapply Forall_forall in T; [exact T|]. apply In_targets. eauto. }
    unfold K. rewrite nth_bmax by lia. unfold X1. rewrite (nth_gx ms X N j f) by auto.
    specialize (Hk j f Hj). rewrite (nth_indep No 1%nat O) in Hk by lia. rewrite (nth_indep N 1%nat O) in Hk by lia. lia. }
  split.
  { rewrite S2. unfold N1 at 2. rewrite gn_back; auto. unfold short in Sh; lia. }
  intros a k y m d Ha Hki Hy Hm Hd.
  pose proof (indices_length _ _ Ha) as La. pose proof (indices_length _ _ Hki) as Lk. rewrite gx_length in Lk.
  pose proof (indices_length _ _ Hy) as Ly. pose proof (indices_length _ _ Hm) as Lm.
  rewrite V2 by (rewrite ?app_length, ?bmax_len; lia). rewrite gx_app, gn_app by (rewrite Lm; auto).
  rewrite V1 by (rewrite ?gx_length, ?gn_length; auto; lia). f_equal.
  specialize (V0 [] (clamp X1 (gx_ ms k m)) y (clamp N1 (gn_ ms k m) ++ clamp Ds d)). cbn [app] in V0.
  assert (Lc1 : length (clamp X1 (gx_ ms k m)) = length X) by (rewrite clamp_length, gx_length; lia).
  assert (Lc2 : length (clamp N1 (gn_ ms k m)) = length N) by (rewrite clamp_length, gn_length; lia).
  assert (LDd : length (clamp Ds d) = length Ds).
  { rewrite clamp_length. lia. }
  rewrite V0 by (rewrite ?app_length; auto; lia). rewrite gx_app, gn_app by (rewrite Lc2; auto). rewrite <- ?app_assoc.
  assert (Zn : forall f, In f (targets ms) -> nth f (clamp N1 (gn_ ms k m)) O = O).
  { intros f Hf. pose proof (proj1 (Forall_forall _ _) T f Hf) as Tf. cbn beta in Tf. rewrite nth_clamp by (rewrite ?gn_length; lia). unfold N1. rewrite gn_single by auto. reflexivity. }
  assert (G1 : gx_ ms (clamp X1 (gx_ ms k m)) (clamp N1 (gn_ ms k m)) = clamp X k).
  { apply list_eq_nth; [rewrite gx_length, Lc1, clamp_length; lia|]. intros j Hj. rewrite gx_length, Lc1 in Hj.
    destruct (mapped_dec ms j) as [(f & Hf)|Hf].
    - rewrite (nth_gx ms _ _ j f) by (auto; unfold short in Sh; lia). rewrite Zn by (apply In_targets; eauto).
      rewrite nth_clamp by lia. rewrite (nth_single ms X j f) by auto. reflexivity.
    - rewrite nth_gx_un by auto. rewrite nth_clamp by (rewrite ?gx_length; lia). unfold X1. rewrite !nth_gx_un by auto. now rewrite nth_clamp by lia. }
  assert (G2 : gn_ ms (clamp X1 (gx_ ms k m)) (clamp N1 (gn_ ms k m)) = m).
  { apply list_eq_nth; [rewrite gn_length; lia|]. intros f Hf. rewrite gn_length, Lc2 in Hf.
    destruct (in_dec Nat.eq_dec f (targets ms)) as [I|I].
    - apply In_targets in I as (j & Hj). assert (Lj : (j < length X)%nat). { assert (nth_error ms j <> None) by congruence. apply nth_error_Some in H. unfold short in Sh. lia. }
      rewrite (nth_gn_of ms _ _ j f) by (auto; unfold short in Sh; lia). rewrite nth_clamp by (rewrite ?gx_length; lia).
      rewrite (nth_gx ms k m j f) by (auto; unfold short in Sh; lia). apply clampi_lt. unfold X1. rewrite (nth_gx ms X N j f) by auto. apply in_nth; auto.
    - rewrite nth_gn by auto. rewrite nth_clamp by (rewrite ?gn_length; lia). rewrite nth_gn by auto. apply clampi_lt. unfold N1. rewrite nth_gn by auto. apply in_nth; auto. }
  rewrite G1, G2. reflexivity.
Qed.

(** *** pinning the summation index *)
Lemma gx_stored_id m : forall x n, stored m (gx_ m x n) = stored m x.
Proof. induction m as [|[f|] m IH]; intros [|k x] n; cbn [gx_ stored]; auto; now rewrite IH. Qed.
Lemma Rsum_pin m : forall K N1 (F : idx -> R) n, (length m <= length K)%nat -> Forall (fun f => nth f N1 O = 1%nat) (targets m) ->
  (forall j f, nth_error m j = Some (Some f) -> (nth f n O < nth j K O)%nat) ->
  Rsum (fun k => F k * deltas m k n) (indices K) = Rsum (fun k => F (gx_ m k n)) (indices (gx_ m K N1)).
Proof.
  induction m as [|[f|] m IH]; intros K N1 F n L H1 HK; cbn [gx_].
  - apply Rsum_ext. intros k _. cbn [deltas]. destruct k; cbn; ring.
  - destruct K as [|s K]; [cbn in L; lia|]. cbn [targets] in H1. inversion H1; subst. rewrite H2. rewrite !Rsum_indices_cons.
    cbn [seq]. rewrite Rsum_cons, Rsum_nil, Rplus_0_r.
    rewrite <- (IH K N1 (fun k => F (nth f n O :: k)) n); auto.
    2:{ cbn in L; lia. } 2:{ intros j g Hj. exact (HK (S j) g Hj). }
    rewrite <- (Rsum_delta (fun i => Rsum (fun k => F (i :: k) * deltas m k n) (indices K)) (nth f n O) s (HK O f eq_refl)).
    apply Rsum_ext. intros i _. rewrite <- Rsum_scal_r. apply Rsum_ext. intros k _. cbn [deltas]. unfold delta. rewrite Nat.eqb_sym. ring.
  - destruct K as [|s K]; [cbn in L; lia|]. rewrite !Rsum_indices_cons. apply Rsum_ext. intros i _. cbn [deltas gx_].
    apply (IH K N1 (fun k => F (i :: k)) n); auto. { cbn in L; lia. } intros j g Hj. exact (HK (S j) g Hj).
Qed.
