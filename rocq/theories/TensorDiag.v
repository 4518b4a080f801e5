(** Products where one operand is a diagonal and the other one is stored in
    full: the diagonal of the second one is extracted (tensor.py:46-53, 898-920). *)
From Verif Require Import Prelude DenseModel AnalyticSpec DenseProofs NDArray NDProofs TensorModel TensorSpec TensorSpecOps TensorLemmas TensorBasic TensorSum TensorSumMain TensorShape TensorBin TensorArith FuncLemmas.
From Coq Require Import Reals Lra.
Import List ListNotations.
Open Scope R_scope.

Lemma map_seq_false (f : nat -> bool) n : forall s, (forall j, (s <= j < s + n)%nat -> f j = false) -> map f (seq s n) = repeat false n.
Proof. induction n as [|n IH]; intros s H; cbn [seq map repeat]; auto. rewrite H by lia. f_equal. apply IH. intros j Hj. apply H. lia. Qed.
Lemma mask_two a b c : mask (a + S (b + S c)) [a; (a + S b)%nat] = repeat false a ++ true :: repeat false b ++ true :: repeat false c.
Proof.
  unfold mask. set (f := fun j => existsb (Nat.eqb j) [a; (a + S b)%nat]).
  assert (F : forall j, f j = orb (Nat.eqb j a) (Nat.eqb j (a + S b))) by (intros; unfold f; cbn [existsb]; now rewrite orb_false_r).
  rewrite seq_app, map_app. cbn [plus seq map]. rewrite seq_app, map_app. cbn [seq map].
  rewrite !map_seq_false.
  - f_equal. f_equal; [rewrite F, Nat.eqb_refl; reflexivity|]. f_equal. f_equal. rewrite F. replace (S a + b)%nat with (a + S b)%nat by lia. rewrite Nat.eqb_refl. apply orb_true_r.
  - intros j Hj. rewrite F. destruct (Nat.eqb_spec j a); [lia|]. destruct (Nat.eqb_spec j (a + S b)); [lia|reflexivity].
  - intros j Hj. rewrite F. destruct (Nat.eqb_spec j a); [lia|]. destruct (Nat.eqb_spec j (a + S b)); [lia|reflexivity].
  - intros j Hj. rewrite F. destruct (Nat.eqb_spec j a); [lia|]. destruct (Nat.eqb_spec j (a + S b)); [lia|reflexivity].
Qed.
Lemma swapl_sym a b l : swapl a b l = swapl b a l.
Proof. unfold swapl. apply map_ext. intros j. destruct (Nat.eqb_spec j a), (Nat.eqb_spec j b); subst; auto. Qed.
Lemma swapl_same a l : swapl a a l = l.
Proof. apply list_eq_nth; [apply swapl_length|]. rewrite swapl_length. intros j H. rewrite nth_swapl by auto. destruct (Nat.eqb_spec j a); subst; auto. Qed.
Lemma removelast_snoc {A} (l : list A) x : removelast (l ++ [x]) = l. Proof. apply removelast_last. Qed.
Definition diag_step (arr : nda) (i j : nat) : res nda :=
  let! d := np_diagonal arr i j in let! w := np_swapaxes d (ndim d - 1) (j - 1) in np_expand_dims w i.
Lemma diag_step_ok arr A s B C : shp arr = A ++ s :: B ++ s :: C -> (length C <= 1)%nat ->
  exists r, diag_step arr (length A) (length A + S (length B)) = Ok r /\ shp r = A ++ 1%nat :: B ++ s :: C /\
    forall a b c j u, length a = length A -> length b = length B -> length c = length C ->
      el r (a ++ u :: b ++ j :: c) = el arr (a ++ j :: b ++ j :: c).
Proof.
  intros E LC. assert (ND : ndim arr = (length A + S (length B + S (length C)))%nat) by (unfold ndim; rewrite E; rewrite app_length; cbn [length]; rewrite app_length; reflexivity).
  unfold diag_step, np_diagonal. rewrite ND.
  replace (Nat.ltb (length A) _) with true by (symmetry; apply Nat.ltb_lt; lia). replace (Nat.ltb (length A + S (length B)) _) with true by (symmetry; apply Nat.ltb_lt; lia).
  replace (Nat.eqb (length A) (length A + S (length B))) with false by (symmetry; apply Nat.eqb_neq; lia). cbn [andb negb rbind].
  rewrite mask_two.
  assert (N1 : nth (length A) (shp arr) 0%nat = s) by (rewrite E, app_nth2, Nat.sub_diag by lia; reflexivity).
  assert (N2 : nth (length A + S (length B)) (shp arr) 0%nat = s).
  { rewrite E, app_nth2 by lia. replace (length A + S (length B) - length A)%nat with (S (length B)) by lia. cbn [nth]. rewrite app_nth2, Nat.sub_diag by lia. reflexivity. }
  rewrite N1, N2, Nat.min_id.
  assert (PK : pick false (repeat false (length A) ++ true :: repeat false (length B) ++ true :: repeat false (length C)) (shp arr) = A ++ B ++ C).
  { rewrite E. rewrite pick_app by (now rewrite repeat_length). rewrite pick_same by auto. f_equal. cbn [pick Bool.eqb]. rewrite pick_app by (now rewrite repeat_length). rewrite pick_same by auto. f_equal.
    cbn [pick Bool.eqb]. now apply pick_same. }
  rewrite PK. set (m := repeat false (length A) ++ _) in *.
  assert (MG : forall a b c j, length a = length A -> length b = length B -> length c = length C -> merge m (a ++ b ++ c) [j; j] = a ++ j :: b ++ j :: c).
  { intros a b c j La Lb Lc. unfold m. rewrite merge_false by auto. f_equal. cbn [merge]. f_equal. rewrite merge_false by auto. f_equal. cbn [merge]. f_equal.
    rewrite <- (app_nil_r (repeat false (length C))), <- (app_nil_r c) at 1. rewrite merge_false by auto. cbn [merge]. apply app_nil_r. }
  unfold np_swapaxes, ndim. cbn [shp el]. rewrite !app_length. cbn [length].
  replace (length A + (length B + length C) + 1 - 1)%nat with (length A + (length B + length C))%nat by lia.
  replace (length A + S (length B) - 1)%nat with (length A + length B)%nat by lia.
  rewrite <- !app_assoc.
  replace (Nat.ltb (length A + (length B + length C)) _) with true by (symmetry; apply Nat.ltb_lt; lia). replace (Nat.ltb (length A + length B) _) with true by (symmetry; apply Nat.ltb_lt; lia).
  cbn [andb rbind]. unfold np_expand_dims, ndim. cbn [shp el].
  assert (SW : forall a b c (j : nat), length a = length A -> length b = length B -> length c = length C ->
    swapl (length A + (length B + length C)) (length A + length B) (a ++ b ++ j :: c) = a ++ b ++ c ++ [j] /\
    swapl (length A + (length B + length C)) (length A + length B) (a ++ b ++ c ++ [j]) = a ++ b ++ j :: c).
  { intros a b c j La Lb Lc. destruct c as [|c0 [|]]; cbn [length] in Lc; [| |rewrite <- Lc in LC; lia].
    - rewrite <- Lc, Nat.add_0_r, !swapl_same. auto.
    - rewrite <- Lc, swapl_sym. replace (length A + (length B + 1))%nat with (length (a ++ b) + 1)%nat by (rewrite app_length; lia). replace (length A + length B)%nat with (length (a ++ b)) by (rewrite app_length; lia).
      pose proof (swapl_split (a ++ b) j [] c0 []) as Q1. pose proof (swapl_split (a ++ b) c0 [] j []) as Q2. cbn [length app] in Q1, Q2.
      rewrite <- !app_assoc in Q1, Q2. rewrite !Nat.add_1_r in *. cbn [app] in *. rewrite Nat.add_1_r in Q1, Q2 || idtac. split; [exact Q1 | rewrite swapl_sym; exact Q2]. }
  destruct (SW A B C s eq_refl eq_refl eq_refl) as [_ S2]. rewrite S2.
  replace (Nat.leb (length A) _) with true by (symmetry; apply Nat.leb_le; rewrite !app_length; lia).
  eexists; split; [reflexivity|]. cbn [shp el]. split.
  - rewrite firstn_app, firstn_all, Nat.sub_diag, skipn_app, skipn_all, Nat.sub_diag. cbn [firstn skipn app]. now rewrite app_nil_r.
  - intros a b c j u La Lb Lc. rewrite <- La. rewrite firstn_app, firstn_all, Nat.sub_diag, skipn_app. cbn [firstn]. rewrite app_nil_r.
    replace (skipn (S (length a)) a) with (@nil nat) by (symmetry; apply skipn_all2; lia). replace (S (length a) - length a)%nat with 1%nat by lia. cbn [skipn app]. rewrite La.
    destruct (SW a b c j La Lb Lc) as [Q _]. rewrite Q. rewrite !app_assoc, last_last, removelast_snoc, <- !app_assoc. now rewrite MG.
Qed.

(** a whole group of axes *)
Fixpoint flat1 (m : amap) (X : list nat) : list nat :=
  match m, X with Some _ :: m', _ :: X' => 1%nat :: flat1 m' X' | None :: m', s :: X' => s :: flat1 m' X' | _, _ => X end.
(** coordinates of the group, mapped ones read from the features *)
Fixpoint along (m : amap) (x n : idx) : idx :=
  match m, x with Some f :: m', _ :: x' => nth f n 0%nat :: along m' x' n | None :: m', k :: x' => k :: along m' x' n | _, _ => x end.
Lemma take_diag_ok m : forall arr A X B N p, shp arr = A ++ X ++ B ++ N -> p = length (A ++ X ++ B) -> fulldiag m X N ->
  exists r, arr_take_diag_from (length A) arr 0 p m = Ok r /\ shp r = A ++ flat1 m X ++ B ++ N /\
    forall a x b n, length a = length A -> length x = length X -> length b = length B -> length n = length N ->
      el r (a ++ stored m x ++ b ++ n) = el arr (a ++ along m x n ++ b ++ n).
Proof.
  induction m as [|[f|] m IH]; intros arr A X B N p E -> F; cbn [arr_take_diag_from].
  - exists arr. cbn [flat1]. split; [reflexivity|]. split; [now destruct X|]. intros. now destruct x.
  - destruct X as [|s X]; [destruct F|]. destruct F as (Hf & Hl & Hs & F).
    destruct (NDProofs.split_nth f N 0%nat Hf) as (N1 & N2 & EN & LN1 & _).
    set (p := length (A ++ (s :: X) ++ B)).
    assert (LN2 : (length N2 <= 1)%nat) by (assert (length N = (length N1 + S (length N2))%nat) by (rewrite EN at 1; rewrite app_length; reflexivity); lia).
    assert (Es : nth f N 0%nat = s) by auto.
    destruct (diag_step_ok arr A s (X ++ B ++ N1) N2) as (r & Er & Sr & Vr); auto.
    { rewrite E. cbn [app]. f_equal. f_equal. rewrite EN at 1. rewrite Es. now rewrite <- !app_assoc. }
    assert (EP : (p + f = length A + S (length (X ++ B ++ N1)))%nat) by (unfold p; rewrite ?app_length; cbn [length]; rewrite ?app_length; lia).
    unfold diag_step in Er. cbn [plus]. rewrite EP. destruct (np_diagonal arr (length A) (length A + S (length (X ++ B ++ N1)))) as [dg|]; cbn [rbind] in *; [|discriminate].
    destruct (np_swapaxes dg (ndim dg - 1) (length A + S (length (X ++ B ++ N1)) - 1)) as [w|]; cbn [rbind] in *; [|discriminate]. rewrite Er. cbn [rbind].
    destruct (IH r (A ++ [1%nat]) X B N p) as (r' & Er' & Sr' & Vr').
    { rewrite Sr, <- !app_assoc. cbn [app]. do 3 f_equal. rewrite EN. rewrite Es. reflexivity. }
    { unfold p. rewrite ?app_length. cbn [length]. rewrite ?app_length. cbn [length]. lia. } { exact F. }
    rewrite app_length, Nat.add_comm in Er'. cbn [length plus] in Er'. exists r'. split; [exact Er'|]. split; [rewrite Sr', <- app_assoc; reflexivity|].
    intros a x b n La Lx Lb Ln. destruct x as [|k x]; [discriminate|]. cbn [stored along app length] in *.
    specialize (Vr' (a ++ [0%nat]) x b n). rewrite <- !app_assoc in Vr'. cbn [app] in Vr'. rewrite Vr' by (rewrite ?app_length; cbn; lia).
    destruct (NDProofs.split_nth f n 0%nat ltac:(lia)) as (n1 & n2 & En & Ln1 & _). set (j := nth f n 0%nat) in *.
    assert (Lal : length (along m x n) = length x). { clear. revert x; induction m as [|[g|] m IHm]; intros [|k x]; cbn [along length]; auto. }
    assert (EQ : along m x n ++ b ++ n = (along m x n ++ b ++ n1) ++ j :: n2) by (rewrite <- !app_assoc; rewrite En at 2; reflexivity).
    rewrite EQ. apply Vr.
    + exact La.
    + rewrite !app_length. lia.
    + assert (length n = (length n1 + S (length n2))%nat) by (rewrite En at 1; rewrite app_length; reflexivity). assert (length N = (length N1 + S (length N2))%nat) by (rewrite EN at 1; rewrite app_length; reflexivity). lia.
  - destruct X as [|s X]; [destruct F|]. cbn [fulldiag] in F.
    destruct (IH arr (A ++ [s]) X B N (length (A ++ (s :: X) ++ B))) as (r & Er & Sr & Vr); auto.
    { rewrite E, <- !app_assoc. reflexivity. } { now rewrite <- app_assoc. }
    rewrite app_length, Nat.add_comm in Er. cbn [length plus] in Er. exists r. split; [exact Er|]. split; [rewrite Sr, <- app_assoc; reflexivity|].
    intros a x b n La Lx Lb Ln. destruct x as [|k x]; [discriminate|]. cbn [stored along app length] in *.
    specialize (Vr (a ++ [k]) x b n). rewrite <- !app_assoc in Vr. cbn [app] in Vr. apply Vr; rewrite ?app_length; cbn; lia.
Qed.

(** *** the extracted operand *)
Lemma bmax_len a : forall b, length (bmax a b) = Nat.max (length a) (length b).
Proof. induction a as [|s a IH]; intros [|s' b]; cbn [bmax length]; auto. now rewrite IH. Qed.
Lemma stored_length m : forall x, length (stored m x) = length x.
Proof. induction m as [|[f|] m IH]; intros [|k x]; cbn [stored length]; auto. Qed.
Lemma flat1_length m : forall X, length (flat1 m X) = length X.
Proof. induction m as [|[f|] m IH]; intros [|k x]; cbn [flat1 length]; auto. Qed.
Lemma flat1_pos m : forall X, posl X -> posl (flat1 m X).
Proof. induction m as [|[f|] m IH]; intros [|k x] P; cbn [flat1]; auto; inversion P as [|? ? P1 P2]; subst; constructor; [lia|exact (IH _ P2)|exact P1|exact (IH _ P2)]. Qed.
Lemma flat1_single m : forall X N, fulldiag m X N -> single_at m (flat1 m X).
Proof. induction m as [|[f|] m IH]; intros [|k x] N F; cbn [flat1 single_at fulldiag] in *; auto; [destruct F as (_ & _ & _ & F); split; eauto|eauto]. Qed.
Lemma flat1_msizes m : forall X N, fulldiag m X N -> msizes m (flat1 m X) N = X.
Proof.
  induction m as [|[f|] m IH]; intros [|k x] N F; cbn [flat1 msizes fulldiag] in *; auto; try tauto.
  - destruct F as (H & _ & E & F). rewrite IH by auto. f_equal. rewrite E. now apply nth_indep.
  - now rewrite IH.
Qed.
Lemma flat1_compat m : forall XS X, single_at m XS -> Forall2 bcompat XS X -> Forall2 bcompat XS (flat1 m X).
Proof.
  induction m as [|[f|] m IH]; intros XS X Sg H; cbn [flat1]; [destruct X; auto| |]; destruct H as [|s s' XS X Hs H]; cbn [single_at] in Sg; try tauto; constructor; auto.
  - right; right; reflexivity. - apply IH; tauto.
Qed.
Lemma fulldiag_mapped m : forall X N j f, fulldiag m X N -> nth_error m j = Some (Some f) -> nth j X 1%nat = nth f N 1%nat.
Proof.
  induction m as [|[g|] m IH]; intros [|k x] N [|j] f F E; cbn [fulldiag nth_error nth] in *; try discriminate; try tauto.
  - inversion E; subst. destruct F as (H & _ & Ek & F). rewrite Ek. now apply nth_indep.
  - destruct F as (_ & _ & _ & F). eauto. - eauto.
Qed.
Lemma along_at m : forall XS XO x nS nO, (length m <= length XS)%nat -> length XS = length XO -> length x = length XO ->
  (forall j f, nth_error m j = Some (Some f) -> nth j XS 1%nat = nth j XO 1%nat /\ nth f nS 0%nat = nth f nO 0%nat) ->
  deltas m (clamp XS x) nS = 1 -> along m (clamp XO x) nO = clamp XO x /\ deltas m (clamp XO x) nO = 1.
Proof.
  induction m as [|[f|] m IH]; intros XS XO x nS nO Lm L Lx H D.
  - split; [destruct XO, x; reflexivity|reflexivity].
  - destruct XS as [|s XS], XO as [|s' XO], x as [|k x]; cbn [length] in *; try lia. cbn [clamp deltas along] in *.
    destruct (H 0%nat f eq_refl) as [Es En]. cbn [nth] in Es. subst s'.
    unfold delta in D at 1. destruct (Nat.eqb_spec (clampi s k) (nth f nS 0%nat)) as [E|]; [|lra].
    rewrite Rmult_1_l in D. destruct (IH XS XO x nS nO ltac:(lia) ltac:(lia) ltac:(lia)) as [I1 I2].
    { intros j g Hj. exact (H (S j) g Hj). } { exact D. }
    rewrite I1, I2. rewrite <- En, E. split; [reflexivity|]. unfold delta. rewrite Nat.eqb_refl. ring.
  - destruct XS as [|s XS], XO as [|s' XO], x as [|k x]; cbn [length] in *; try lia. cbn [clamp deltas along] in *.
    destruct (IH XS XO x nS nO ltac:(lia) ltac:(lia) ltac:(lia)) as [I1 I2].
    { intros j g Hj. exact (H (S j) g Hj). } { exact D. } rewrite I1, I2. auto.
Qed.
Lemma nth_error_targets m j f : nth_error m j = Some (Some f) -> In f (targets m).
Proof. revert j; induction m as [|[g|] m IH]; intros [|j]; cbn; try discriminate; intros E; [inversion E; auto|eauto|eauto]. Qed.
Lemma mapped_size m : forall X N j f, (length m <= length X)%nat -> nth_error m j = Some (Some f) -> nth j (msizes m X N) 1%nat = nth f N 1%nat.
Proof.
  induction m as [|[g|] m IH]; intros [|s X] N [|j] f L E; cbn [length msizes nth nth_error] in *; try discriminate; try lia.
  - now inversion E. - apply IH; auto; lia. - apply IH; auto; lia.
Qed.
Lemma single_length m : forall X, single_at m X -> (length m <= length X)%nat.
Proof. induction m as [|[f|] m IH]; intros [|s X] H; cbn [single_at length] in *; try lia; try tauto; [destruct H as [_ H]|]; specialize (IH _ H); lia. Qed.

Lemma take_den s o : wf s -> wf o -> to_features s -> to_features o -> compat s o -> extractable s o ->
  exists v, arr_take_diag (tv o) 0 (xd o + yd o) (xm s) = Ok v /\
    let o' := mkT v (xd o) (yd o) (nn o) (dm o) (xm s) (ym o) in
    wf o' /\ to_features o' /\ compat s o' /\ length (shp v) = length (shp (tv o)) /\ sY o' = sY o /\
    xs (den o') = xs (den o) /\ ys (den o') = ys (den o) /\ ns (den o') = ns (den o) /\ ds (den o') = ds (den o) /\
    forall x y n d, In x (indices (bmax (xs (den s)) (xs (den o)))) -> In y (indices (bmax (ys (den s)) (ys (den o)))) ->
      In n (indices (bmax (ns (den s)) (ns (den o)))) -> In d (indices (bmax (ds (den s)) (ds (den o)))) ->
      get (den s) x y n d * get (den o') x y n d = get (den s) x y n d * get (den o) x y n d.
Proof.
  intros Ws Wo Fs Fo C [Em Eo Fd Et].
  pose proof (wf_groups s Ws) as Gs. pose proof (wf_groups o Wo) as Go.
  destruct (take_diag_ok (xm s) (tv o) [] (sX o) (sY o) (sN o ++ sD o) (xd o + yd o)) as (v & Ev & Sv & Vv); auto.
  { exact (g_shp _ _ _ _ _ Go). } { cbn [app]. rewrite app_length. now rewrite (g_x _ _ _ _ _ Go), (g_y _ _ _ _ _ Go). }
  exists v. split; [exact Ev|]. cbn [app] in Sv. set (o' := mkT v (xd o) (yd o) (nn o) (dm o) (xm s) (ym o)). cbv zeta.
  destruct (wf_x s Ws) as (Sgs & NDs & _). pose proof (single_length _ _ Sgs) as Lms.
  assert (G' : groups o' (flat1 (xm s) (sX o)) (sY o) (sN o) (sD o)).
  { destruct Go as [E1 E2 E3 E4 E5]. constructor; cbn [tv xd yd nn dm o']; auto. now rewrite flat1_length. }
  assert (LX : Forall2 bcompat (sX s) (sX o)).
  { destruct (cp_x _ _ C) as [E|[E|H]]; auto.
    - rewrite E in Lms. cbn in Lms. destruct (xm s); [congruence|cbn in Lms; lia].
    - rewrite E in Fd. destruct (xm s) as [|[f|] m]; [congruence|destruct Fd|destruct Fd]. }
  pose proof (Forall2_length' _ _ _ LX) as LXe.
  destruct (wf_x o Wo) as (_ & _ & _). pose proof (wf_y o Wo) as Myo.
  assert (PO : posl (sX o) /\ posl (sY o) /\ posl (sN o) /\ posl (sD o)).
  { pose proof (wf_pos o Wo) as P. rewrite (g_shp _ _ _ _ _ Go) in P. apply pos_app in P as [? P]. apply pos_app in P as [? P]. apply pos_app in P as [? ?]. auto. }
  destruct PO as (PX & PY & PN & PD).
  destruct (groups_sX _ _ _ _ _ G') as (Q1 & Q2 & Q3 & Q4).
  assert (TF : Forall (fun f => (f < nn o)%nat) (targets (xm s))) by (apply Forall_forall; intros f Hf; now apply Et).
  assert (W' : wf o').
  { apply (wf_of o' _ _ _ _ G'); auto using flat1_pos.
    - cbn [xm o']. split; [exact (flat1_single _ _ _ Fd)|]. split; auto. rewrite (g_n _ _ _ _ _ Go), (g_d _ _ _ _ _ Go). eapply Forall_impl; [|exact TF]. intros; cbn beta in *; lia.
    - cbn [ym o']. rewrite (g_n _ _ _ _ _ Go), (g_d _ _ _ _ _ Go). exact Myo. }
  destruct (den_groups _ _ _ _ _ G') as (D1 & D2 & D3 & D4). destruct (den_groups _ _ _ _ _ Go) as (O1 & O2 & O3 & O4). destruct (den_groups _ _ _ _ _ Gs) as (S1 & S2 & S3 & S4).
  cbn [xm ym o'] in D1, D2. rewrite (flat1_msizes _ _ _ Fd) in D1. rewrite Eo in O1. cbn [msizes] in O1.
  assert (O1' : xs (den o) = sX o) by (rewrite O1; now destruct (sX o)). clear O1.
  split; [exact W'|]. split; [split; [exact TF|exact (proj2 Fo)]|]. split.
  { constructor; rewrite ?Q1, ?Q2, ?Q3, ?Q4; cbn [xm ym o'].
    - right; right. now apply flat1_compat. - exact (cp_y _ _ C). - exact (cp_n _ _ C). - exact (cp_d _ _ C).
    - exact (cp_xs _ _ C). - exact (cp_ys _ _ C).
    - intros f Hf. destruct (Et f Hf) as [_ E]. rewrite E. lia.
    - exact (cp_yo _ _ C). }
  split. { rewrite Sv, (g_shp _ _ _ _ _ Go), !app_length, flat1_length. reflexivity. }
  split; [exact Q2|]. split; [now rewrite D1, O1'|]. split; [now rewrite D2, O2|]. split; [now rewrite D3, O3|]. split; [now rewrite D4, O4|].
  intros x y n d Hx Hy Hn Hd. rewrite S1, O1' in Hx. rewrite S2, O2 in Hy. rewrite S3, O3 in Hn. rewrite S4, O4 in Hd.
  apply indices_length in Hx, Hy, Hn, Hd. rewrite bmax_len in Hx, Hy, Hn, Hd. rewrite msizes_length in Hx. rewrite !msizes_length in Hy.
  unfold get. rewrite D1, D2, D3, D4, O1', O2, O3, O4, S1, S2, S3, S4.
  unfold den at 1 3. cbn [at_].
  destruct (deltas_01 (xm s) (clamp (msizes (xm s) (sX s) (sN s ++ sD s)) x) (clamp (sN s) n ++ clamp (sD s) d)) as [Z|O]; [rewrite Z; ring|].
  f_equal. unfold den. cbn [at_ tv xm ym o']. rewrite Eo.
  assert (LN : length (clamp (sN o) n) = nn o) by (rewrite clamp_length, (g_n _ _ _ _ _ Go); rewrite (g_n _ _ _ _ _ Go) in Hn; lia).
  assert (LNs : length (clamp (sN s) n) = nn s) by (rewrite clamp_length, (g_n _ _ _ _ _ Gs); rewrite (g_n _ _ _ _ _ Gs) in Hn; lia).
  destruct (along_at (xm s) (msizes (xm s) (sX s) (sN s ++ sD s)) (sX o) x (clamp (sN s) n ++ clamp (sD s) d) (clamp (sN o) n ++ clamp (sD o) d)) as [A1 A2].
  { now rewrite msizes_length. } { now rewrite msizes_length. } { lia. }
  { intros j f Hj. pose proof (nth_error_targets _ _ _ Hj) as Hf. destruct (Et f Hf) as [Hfo Ef]. pose proof (proj1 (Forall_forall _ _) (proj1 Fs) f Hf) as Hfs.
    assert (Lo : (f < length (sN o))%nat) by now rewrite (g_n _ _ _ _ _ Go). assert (Ls : (f < length (sN s))%nat) by now rewrite (g_n _ _ _ _ _ Gs). split.
    - rewrite (mapped_size _ _ _ _ _ Lms Hj), (fulldiag_mapped _ _ _ _ _ Fd Hj), !app_nth1 by auto. exact Ef.
    - rewrite (app_nth1 (clamp (sN s) n)) by (rewrite LNs; exact Hfs). rewrite (app_nth1 (clamp (sN o) n)) by (rewrite LN; exact Hfo). rewrite !nth_clamp by auto. now rewrite Ef. }
  { exact O. }
  rewrite A2. assert (DN : deltas [] (clamp (sX o) x) (clamp (sN o) n ++ clamp (sD o) d) = 1) by reflexivity. rewrite DN. f_equal. f_equal.
  specialize (Vv [] (clamp (sX o) x) (stored (ym o) (clamp (msizes (ym o) (sY o) (sN o ++ sD o)) y)) (clamp (sN o) n ++ clamp (sD o) d)).
  cbn [app] in Vv. rewrite Vv.
  - rewrite A1. reflexivity.
  - reflexivity.
  - rewrite clamp_length. lia.
  - rewrite stored_length, clamp_length, msizes_length. lia.
  - rewrite !app_length, !clamp_length. lia.
Qed.

(** diagonal times full: the product is a diagonal *)
Theorem tmul_extract_ok s o : wf s -> wf o -> to_features s -> to_features o -> compat s o -> shp (tv s) <> [] ->
  extractable s o -> same_or_absent (ym s) (ym o) (sY s) (sY o) ->
  exists r, tbin_tensor s o MUL = Ok (PT r) /\ wf r /\ to_features r /\ dsame (den r) (dbin Rmult (den s) (den o)).
Proof.
  intros Ws Wo Fs Fo C R Ex My. destruct (take_den s o Ws Wo Fs Fo C Ex) as (v & Ev & W' & F' & C' & Lv & Y' & X1 & X2 & X3 & X4 & P).
  set (o' := mkT v (xd o) (yd o) (nn o) (dm o) (xm s) (ym o)) in *.
  destruct (tmul_ok s o' MUL Ws W' Fs F' C' R) as (r & Er & Wr & Fr & Dr).
  { left. reflexivity. } { rewrite Y'. exact My. } { left. reflexivity. }
  exists r. split; [|split; [exact Wr|split; [exact Fr|]]].
  - rewrite <- Er. unfold tbin_tensor. destruct (shp (tv s)) as [|h0 l0]; [congruence|].
    change (nn o') with (nn o). change (dm o') with (dm o). change (xd o') with (xd o). change (yd o') with (yd o). change (xm o') with (xm s). change (ym o') with (ym o). change (tv o') with v.
    replace (reshape_idx o') with (reshape_idx o) by reflexivity. cbn [additive].
    destruct Ex as [Em Eo Fd Et]. rewrite Eo. assert (Nm : nonempty (xm s) = true) by (destruct (xm s); [congruence|reflexivity]). rewrite Nm.
    rewrite cross_diag_nil, cross_diag_same. cbn [rbind nonempty negb andb].
    assert (XO : Nat.ltb 0 (xd o) = true).
    { apply Nat.ltb_lt. rewrite <- (g_x _ _ _ _ _ (wf_groups o Wo)). destruct (xm s) as [|[f|] m], (sX o); cbn in *; try lia; try tauto; congruence. }
    rewrite XO, Ev. cbn [rbind]. reflexivity.
  - destruct Dr as (E1 & E2 & E3 & E4 & V). cbn [dbin xs ys ns ds at_] in *. repeat split; cbn [dbin xs ys ns ds at_]; try congruence.
    intros x y n d Hx Hy Hn Hd. rewrite V by auto. cbn [op_fun]. rewrite E1, X1 in Hx. rewrite E2, X2 in Hy. rewrite E3, X3 in Hn. rewrite E4, X4 in Hd. now apply P.
Qed.
Lemma compat_sym s o : compat s o -> compat o s.
Proof. intros [A B C D E F G H]. constructor; auto using bok_sym. Qed.
(** full times diagonal *)
Theorem tmul_extract_r_ok s o : wf s -> wf o -> to_features s -> to_features o -> compat s o -> shp (tv s) <> [] ->
  extractable o s -> same_or_absent (ym s) (ym o) (sY s) (sY o) ->
  exists r, tbin_tensor s o MUL = Ok (PT r) /\ wf r /\ to_features r /\ dsame (den r) (dbin Rmult (den s) (den o)).
Proof.
  intros Ws Wo Fs Fo C R Ex My. destruct (take_den o s Wo Ws Fo Fs (compat_sym _ _ C) Ex) as (v & Ev & W' & F' & C' & Lv & Y' & X1 & X2 & X3 & X4 & P).
  set (s' := mkT v (xd s) (yd s) (nn s) (dm s) (xm o) (ym s)) in *.
  assert (R' : shp (tv s') <> []) by (cbn [tv s']; intros H; rewrite H in Lv; destruct (shp (tv s)); [congruence|discriminate]).
  destruct (tmul_ok s' o MUL W' Wo F' Fo (compat_sym _ _ C') R') as (r & Er & Wr & Fr & Dr).
  { left. reflexivity. } { rewrite Y'. exact My. } { left. reflexivity. }
  exists r. split; [|split; [exact Wr|split; [exact Fr|]]].
  - rewrite <- Er. unfold tbin_tensor. destruct (shp (tv s)) as [|h0 l0]; [congruence|]. destruct (shp (tv s')) as [|h1 l1]; [congruence|].
    change (nn s') with (nn s). change (dm s') with (dm s). change (xd s') with (xd s). change (yd s') with (yd s). change (xm s') with (xm o). change (ym s') with (ym s). change (tv s') with v.
    replace (reshape_idx s') with (reshape_idx s) by reflexivity. cbn [additive].
    destruct Ex as [Em Eo Fd Et]. rewrite Eo. assert (Nm : nonempty (xm o) = true) by (destruct (xm o); [congruence|reflexivity]). rewrite Nm.
    rewrite cross_diag_same. cbn [rbind nonempty negb andb].
    assert (XO : Nat.ltb 0 (xd s) = true).
    { apply Nat.ltb_lt. rewrite <- (g_x _ _ _ _ _ (wf_groups s Ws)). destruct (xm o) as [|[f|] m], (sX s); cbn in *; try lia; try tauto; congruence. }
    rewrite XO, Ev. cbn [rbind]. reflexivity.
  - destruct Dr as (E1 & E2 & E3 & E4 & V). cbn [dbin xs ys ns ds at_] in *. repeat split; cbn [dbin xs ys ns ds at_]; try congruence.
    intros x y n d Hx Hy Hn Hd. rewrite V by auto. cbn [op_fun]. rewrite E1, X1, (bmax_sym (xs (den s))) in Hx. rewrite E2, X2, (bmax_sym (ys (den s))) in Hy. rewrite E3, X3, (bmax_sym (ns (den s))) in Hn. rewrite E4, X4, (bmax_sym (ds (den s))) in Hd.
    specialize (P x y n d Hx Hy Hn Hd). lra.
Qed.
