(** Tensor.sum over all features: the result is the dense sum. *)
From Verif Require Import Prelude DenseModel AnalyticSpec DenseProofs NDArray NDProofs TensorModel TensorSpec TensorLemmas TensorBasic TensorSum.
From Coq Require Import Reals Lra.
Import List ListNotations.
Open Scope R_scope.

(** *** maps to features do not see the dim axes *)
Lemma gx_app m : forall x n d, Forall (fun f => f < length n)%nat (targets m) -> gx_ m x (n ++ d) = gx_ m x n.
Proof.
  induction m as [|[f|] m IH]; intros [|k x] n d T; cbn [gx_ targets] in *; auto.
  - inversion T; subst. rewrite app_nth1 by auto. now rewrite IH.
  - now rewrite IH.
Qed.
Lemma gn_app m : forall x n d, Forall (fun f => f < length n)%nat (targets m) -> gn_ m x (n ++ d) = gn_ m x n ++ d.
Proof.
  induction m as [|[f|] m IH]; intros [|k x] n d T; cbn [gn_ targets] in *; auto.
  inversion T; subst. rewrite IH by auto. rewrite upd_app1; auto. now rewrite gn_length.
Qed.
Lemma deltas_app m : forall x n d, Forall (fun f => f < length n)%nat (targets m) -> deltas m x (n ++ d) = deltas m x n.
Proof.
  induction m as [|[f|] m IH]; intros [|k x] n d T; cbn [deltas targets] in *; auto.
  inversion T; subst. rewrite app_nth1 by auto. now rewrite IH.
Qed.
Lemma gx_msizes m : forall sx sn sd, Forall (fun f => f < length sn)%nat (targets m) -> msizes m sx (sn ++ sd) = gx_ m sx sn.
Proof.
  induction m as [|[f|] m IH]; intros [|k x] n d T; cbn [gx_ msizes targets] in *; auto.
  - inversion T; subst. rewrite app_nth1 by auto. rewrite (nth_indep n 1%nat O) by auto. now rewrite IH.
  - now rewrite IH.
Qed.
Lemma In_targets f m : In f (targets m) <-> exists l, nth_error m l = Some (Some f).
Proof.
  induction m as [|[g|] m IH]; cbn [targets].
  - split; [intros []|intros [[|l] H]; discriminate].
  - cbn [In]. rewrite IH. split.
    + intros [->|[l H]]; [now exists O|now exists (S l)].
    + intros [[|l] H]; cbn in H; [injection H as ->; auto|right; eauto].
  - rewrite IH. split; [intros [l H]; now exists (S l)|]. intros [[|l] H]; cbn in H; [discriminate|eauto].
Qed.
Lemma find_map_found f mx : In f (targets mx) -> exists l, find_map (Some f) 0 mx = Some l.
Proof. intros H. destruct (find_map (Some f) 0 mx) as [l|] eqn:E; [eauto|]. now apply find_map_In in E. Qed.
(** a mapped feature is left with size 1 by the swaps *)
Lemma nth_single m sx l f : single_at m sx -> nth_error m l = Some (Some f) -> nth l sx O = 1%nat.
Proof.
  revert sx l; induction m as [|[g|] m IH]; intros [|s sx] l S H; cbn [single_at] in S; try tauto.
  - destruct l; discriminate.
  - destruct l; discriminate.
  - destruct S as [-> S]. destruct l as [|l]; cbn in *; auto.
  - destruct l as [|l]; cbn in *; [discriminate|auto].
Qed.
Lemma gn_single m sx sn f : single_at m sx -> NoDup (targets m) -> In f (targets m) -> (f < length sn)%nat ->
  nth f (gn_ m sx sn) O = 1%nat.
Proof.
  intros S ND H Hf. destruct (find_map_found f m H) as [l F]. rewrite (nth_gn_in m sx sn f l); auto.
  - apply find_map_nth in F as [_ F]. rewrite Nat.sub_0_r in F. eapply nth_single; eauto.
  - now apply short_single.
Qed.
Lemma nth_gx m : forall x n l f, nth_error m l = Some (Some f) -> (length m <= length x)%nat -> nth l (gx_ m x n) O = nth f n O.
Proof.
  induction m as [|[g|] m IH]; intros [|k x] n l f H L; cbn [length] in L; try lia; destruct l as [|l]; cbn in *; try discriminate.
  - injection H as ->. reflexivity.
  - eapply IH; eauto. lia.
  - eapply IH; eauto. lia.
Qed.
Lemma gx_stored m : forall x n, (forall f, In f (targets m) -> nth f n O = O) -> gx_ m x n = stored m x.
Proof.
  induction m as [|[f|] m IH]; intros [|k x] n H; cbn [gx_ stored targets In] in *; auto.
  - rewrite H by auto. rewrite IH; auto.
  - rewrite IH; auto.
Qed.

(** *** the y axes that share their feature with an x axis *)
Definition ymc (mx my : amap) : amap :=
  map (fun o => match o with Some f => match find_map (Some f) 0 mx with Some _ => Some f | None => None end | None => None end) my.
Lemma ymc_cons mx o my : ymc mx (o :: my) =
  match o with Some f => match find_map (Some f) 0 mx with Some _ => Some f | None => None end | None => None end :: ymc mx my.
Proof. reflexivity. Qed.
Lemma ymf_cons mx o my : ymf mx (o :: my) =
  match o with Some f => match find_map (Some f) 0 mx with Some _ => None | None => Some f end | None => None end :: ymf mx my.
Proof. reflexivity. Qed.
Lemma crosses_ymc mx my : forall k, crosses k mx (ymc mx my) = crosses k mx my.
Proof.
  induction my as [|[f|] my IH]; intros k; rewrite ?ymc_cons; [reflexivity| |cbn [crosses]; apply IH].
  cbn [crosses]. destruct (find_map (Some f) 0 mx) eqn:E; cbn [crosses]; rewrite ?E, IH; auto.
Qed.
Lemma csizes_ymc mx my : forall sy X, csizes mx (ymc mx my) sy X = csizes mx my sy X.
Proof.
  induction my as [|[f|] my IH]; intros [|s sy] X; rewrite ?ymc_cons; cbn [csizes]; auto.
  - destruct (find_map (Some f) 0 mx) eqn:E; cbn [csizes]; auto.
  - destruct (find_map (Some f) 0 mx) eqn:E; cbn [csizes]; rewrite ?E, IH; auto.
  - now rewrite IH.
Qed.
Lemma cstored_ymc mx my : forall y, cstored mx (ymc mx my) y = cstored mx my y.
Proof.
  induction my as [|[f|] my IH]; intros [|s sy]; rewrite ?ymc_cons; cbn [cstored]; auto.
  - destruct (find_map (Some f) 0 mx) eqn:E; cbn [cstored]; auto.
  - destruct (find_map (Some f) 0 mx) eqn:E; cbn [cstored]; rewrite ?E, IH; auto.
  - now rewrite IH.
Qed.
Lemma xdeltas_ymc mx my : forall y x, xdeltas mx (ymc mx my) y x = xdeltas mx my y x.
Proof.
  induction my as [|[f|] my IH]; intros [|s sy] X; rewrite ?ymc_cons; cbn [xdeltas]; auto.
  - destruct (find_map (Some f) 0 mx) eqn:E; cbn [xdeltas]; auto.
  - destruct (find_map (Some f) 0 mx) eqn:E; cbn [xdeltas]; rewrite ?E, IH; auto. ring.
Qed.
Lemma single_ymc mx my : forall sy sn, single_at my sy -> single_at (ymc mx my) (gx_ (ymf mx my) sy sn).
Proof.
  induction my as [|[f|] my IH]; intros [|s sy] sn S; rewrite ?ymc_cons, ?ymf_cons; cbn [single_at] in *; try tauto.
  - destruct S as [-> S]. destruct (find_map (Some f) 0 mx) eqn:E; cbn [gx_ single_at]; auto.
  - cbn [gx_ single_at]. auto.
Qed.
(** sizes of the result: every mapped axis gets the size of its feature *)
Lemma csizes_msizes mx my : forall X sy sn sd, single_at mx X -> NoDup (targets mx) ->
  Forall (fun f => f < length sn)%nat (targets mx) -> Forall (fun f => f < length sn)%nat (targets my) ->
  csizes mx my (gx_ (ymf mx my) sy (gn_ mx X sn)) (gx_ mx X sn) = msizes my sy (sn ++ sd).
Proof.
  intros X sy sn sd S ND Tx Ty. rewrite gx_msizes by auto. revert sy; induction my as [|[f|] my IH]; intros [|s sy]; rewrite ?ymf_cons; cbn [csizes gx_]; auto.
  - destruct (find_map (Some f) 0 mx); reflexivity.
  - cbn [targets] in Ty. inversion Ty; subst. destruct (find_map (Some f) 0 mx) as [l|] eqn:E; cbn [gx_ csizes]; rewrite ?E.
    + rewrite IH by auto. f_equal. apply find_map_nth in E as [_ E]. rewrite Nat.sub_0_r in E.
      eapply nth_gx; eauto. now apply short_single.
    + rewrite IH by auto. f_equal. apply nth_gn. now apply (find_map_In f mx 0).
  - now rewrite IH by auto.
Qed.
Lemma gn_cstored mx my : forall y n, gn_ (ymf mx my) (cstored mx my y) n = gn_ (ymf mx my) y n.
Proof.
  induction my as [|[f|] my IH]; intros [|k y] n; rewrite ?ymf_cons; cbn [cstored gn_]; auto.
  - destruct (find_map (Some f) 0 mx); cbn [gn_]; now rewrite IH.
Qed.
Lemma gx_cstored mx my : forall y n, (forall f, In f (targets (ymf mx my)) -> nth f n O = O) ->
  gx_ (ymf mx my) (cstored mx my y) n = stored my y.
Proof.
  induction my as [|[f|] my IH]; intros [|k y] n H; rewrite ?ymf_cons in *; cbn [cstored gx_ stored]; auto.
  - destruct (find_map (Some f) 0 mx); auto.
  - destruct (find_map (Some f) 0 mx); cbn [gx_ targets In] in *; [now rewrite IH|]. rewrite H by auto. now rewrite IH by auto.
  - cbn [targets] in H. now rewrite IH.
Qed.

(** *** the summation *)
Lemma axes_nd a b c (sd : bool) : map (fun k => a + k)%nat (seq 0 b) ++ (if sd then map (fun k => a + b + k)%nat (seq 0 c) else []) =
  map (fun k => a + k)%nat (seq 0 (if sd then b + c else b)).
Proof.
  destruct sd; [|now rewrite app_nil_r]. rewrite seq_app, map_app. f_equal. cbn [plus].
  assert (K : forall s, map (fun k => a + b + k)%nat (seq s c) = map (fun k => a + k)%nat (seq (b + s) c)).
  { induction c as [|c IH]; intros s; cbn [seq map]; auto. f_equal; [lia|]. rewrite IH. do 2 f_equal. lia. }
  rewrite K, Nat.add_0_r. reflexivity.
Qed.
Lemma np_sum_nd v A N D (sd : bool) : shp v = A ++ N ++ D ->
  exists r, np_sum v (map (fun k => length A + k)%nat (seq 0 (length N)) ++ if sd then map (fun k => length A + length N + k)%nat (seq 0 (length D)) else []) = Ok r /\
    shp r = A ++ (if sd then [] else D) /\
    forall a d, length a = length A -> length d = length (if sd then [] else D) ->
      el r (a ++ d) = Rsum (fun n => Rsum (fun d' => el v (a ++ n ++ d')) (if sd then indices D else [d])) (indices N).
Proof.
  intros E. rewrite axes_nd. destruct sd.
  - destruct (np_sum_range v A (N ++ D) []) as (r & Er & Sr & Vr); [now rewrite app_nil_r|].
    rewrite app_length in Er. exists r. split; [exact Er|]. split; [exact Sr|]. intros a d La Ld. rewrite Vr by auto.
    rewrite Rsum_indices_app. apply Rsum_ext; intros n _. apply Rsum_ext; intros d' _.
    destruct d; [|discriminate]. now rewrite app_nil_r.
  - destruct (np_sum_range v A N D E) as (r & Er & Sr & Vr). exists r. split; [exact Er|]. split; [exact Sr|]. intros a d La Ld. rewrite Vr by auto.
    apply Rsum_ext; intros n _. now rewrite Rsum_cons, Rsum_nil, Rplus_0_r.
Qed.
Lemma gx_pos m sx sn : posl sx -> posl sn -> Forall (fun f => f < length sn)%nat (targets m) -> posl (gx_ m sx sn).
Proof. intros. rewrite <- (gx_msizes m sx sn []), app_nil_r by auto. now apply msizes_pos. Qed.
Lemma upd_pos f a l : (1 <= a)%nat -> posl l -> posl (upd_nth f a l).
Proof. intros Ha P. revert f; induction P; intros [|f]; cbn [upd_nth]; constructor; auto. now apply IHP. Qed.
Lemma gn_pos m sx sn : posl sx -> posl sn -> posl (gn_ m sx sn).
Proof.
  revert sx; induction m as [|[f|] m IH]; intros [|s sx] Px Pn; cbn [gn_]; auto; inversion Px; subst.
  apply upd_pos; auto. now apply IH.
Qed.
Lemma in_zero sh i f : In i (indices sh) -> (f < length sh)%nat -> nth f sh O = 1%nat -> nth f i O = O.
Proof. intros H L E. pose proof (in_nth sh i f H L). lia. Qed.

Lemma inmap_ymf mx my X sn : forall y, inmap my y sn -> inmap (ymf mx my) y (gn_ mx X sn).
Proof.
  induction my as [|[f|] my IH]; intros [|k y] H; rewrite ?ymf_cons; cbn [inmap] in *; auto.
  - destruct (find_map (Some f) 0 mx); auto.
  - destruct H as [H1 H]. destruct (find_map (Some f) 0 mx) eqn:E; auto. split; auto. rewrite nth_gn; auto. now apply (find_map_In f mx 0).
Qed.
Theorem tsum_ok t sd : wf t -> to_features t ->
  exists r, tsum t SVTrue sd = Ok r /\ wf r /\ xm r = [] /\ ym r = [] /\ dsame (den r) (dsum_axes (den t) true sd).
Proof.
  intros W [Fx Fy]. pose proof (wf_groups t W) as G. destruct (wf_pos4 t W) as (PX & PY & PN & PD).
  destruct (wf_x t W) as (Sx & NDx & _). destruct (wf_y t W) as (Sy & NDy & _).
  pose proof (den_groups _ _ _ _ _ G) as (Dx & Dy & Dn & Dd).
  set (X := sX t) in *. set (Y := sY t) in *. set (N := sN t) in *. set (D := sD t) in *.
  destruct G as [GS Lx Ly Ln Ld]. rewrite <- Ln in Fx, Fy.
  set (mx := xm t) in *. set (my := ym t) in *. set (mf := ymf mx my).
  assert (Tf : Forall (fun f => f < length N)%nat (targets mf)) by (now apply Forall_ymf).
  assert (NDf : NoDup (targets mf)) by (unfold mf; rewrite targets_ymf; now apply NoDup_filter').
  assert (Sf : single_at mf Y) by (now apply single_ymf).
  unfold tsum. fold mx my. rewrite <- Ln.
  rewrite sum_swap_x_eq by auto.
  destruct (swapaxes_ok mx 0 0 (xd t + yd t) (tv t) [] X Y (N ++ D)) as (v1 & E1 & S1 & V1); cbn [length]; auto; try lia.
  { now apply short_single. } { rewrite app_length. eapply Forall_impl; [|exact Fx]. intros; cbn beta in *; lia. }
  rewrite E1. cbn [rbind]. cbn [app] in S1. rewrite gx_app, gn_app in S1 by auto.
  rewrite sum_swap_y_eq by auto. fold mf.
  set (X1 := gx_ mx X N) in *. set (N1 := gn_ mx X N) in *.
  assert (LX1 : length X1 = length X) by apply gx_length. assert (LN1 : length N1 = length N) by apply gn_length.
  destruct (swapaxes_ok mf 0 (xd t) (xd t + yd t) v1 X1 Y [] (N1 ++ D)) as (v2 & E2 & S2 & V2); cbn [length]; auto; try lia.
  { now apply short_single. } { rewrite app_length, LN1. eapply Forall_impl; [|exact Tf]. intros; cbn beta in *; lia. }
  rewrite E2. cbn [rbind rmap]. cbn [app] in S2. rewrite gx_app, gn_app in S2 by (rewrite LN1; auto).
  set (Y1 := gx_ mf Y N1) in *. set (N2 := gn_ mf Y N1) in *.
  assert (LY1 : length Y1 = length Y) by apply gx_length. assert (LN2 : length N2 = length N) by (unfold N2; now rewrite gn_length).
  destruct (np_sum_nd v2 (X1 ++ Y1) N2 D sd) as (v3 & E3 & S3 & V3); [now rewrite <- app_assoc|].
  rewrite app_length, LX1, LY1, Lx, Ly, LN2, Ld in E3. rewrite E3. cbn [rbind app].
  rewrite <- app_assoc in S3.
  assert (PX1 : posl X1) by (apply gx_pos; auto).
  assert (PN1 : posl N1) by (apply gn_pos; auto).
  assert (PY1 : posl Y1) by (apply gx_pos; rewrite ?LN1; auto).
  assert (Pc : posl (if sd then [] else D)) by (destruct sd; [constructor|auto]).
  set (C := if sd then [] else D) in *.
  assert (LC : (if sd then 0 else dm t)%nat = length C) by (subst C; destruct sd; auto).
  assert (CSE : csizes mx (ymc mx my) Y1 X1 = msizes my Y (N ++ D)) by (rewrite csizes_ymc; apply csizes_msizes; auto).
  rewrite <- crosses_ymc.
  destruct (sum_cross_ok mx (ymc mx my) 0 v3 X1 [] Y1 C) as (v4 & E4 & S4 & P4 & V4); auto.
  { now apply single_ymc. }
  { rewrite S3. apply pos_app; split; auto. apply pos_app; split; auto. }
  { rewrite LX1. now apply short_single. }
  rewrite LX1, Lx in E4. rewrite E4. cbn [rbind]. cbn [app] in S4. rewrite CSE in S4, V4.
  assert (EX1 : X1 = msizes mx X (N ++ D)) by (symmetry; apply gx_msizes; auto).
  destruct (Tensor_ok v4 X1 (msizes my Y (N ++ D)) [] C [] [] (xd t) (yd t) (if sd then 0 else dm t)) as (r & Er & Gr & Tr & Mx & My); auto.
  { lia. } { rewrite msizes_length; lia. }
  exists r. split; [exact Er|].
  assert (PYm : posl (msizes my Y (N ++ D))).
  { apply msizes_pos; auto. - apply pos_app; auto. - rewrite app_length. eapply Forall_impl; [|exact Fy]. intros; cbn beta in *; lia. }
  split. { apply (wf_of r _ _ _ _ Gr); auto. - constructor. - rewrite Mx. apply map_ok_nil. - rewrite My. apply map_ok_nil. }
  split; [auto|]. split; [auto|].
  destruct (den_groups _ _ _ _ _ Gr) as (Rx & Ry & Rn & Rd). rewrite Mx in Rx; rewrite My in Ry; rewrite msizes_nil in Rx, Ry.
  unfold dsame. rewrite Rx, Ry, Rn, Rd. cbn [dsum_axes xs ys ns ds at_]. rewrite Dx, Dy, Dd, Dn.
  split; [auto|]. split; [auto|]. split; [auto|]. split; [reflexivity|].
  intros x y n d Hx Hy Hn Hd. cbn in Hn. destruct Hn as [<-|[]].
  assert (HD : length d = length C) by (now apply indices_length in Hd).
  set (L := if sd then indices D else [d]).
  rewrite sumR_map, (Rsum_list_prod (fun n' d' => at_ (den t) x y n' d')).
  unfold den. cbn [at_]. rewrite Mx, My, Tr, !stored_nil, !deltas_nil. fold mx my. cbn [app].
  specialize (V4 x [] y d Hx (or_introl eq_refl) Hy Hd). cbn [app] in V4. rewrite V4, cstored_ymc, xdeltas_ymc.
  assert (Lxx : length x = length X) by (apply indices_length in Hx; lia).
  assert (Lyy : length y = length Y) by (apply indices_length in Hy; now rewrite msizes_length in Hy).
  assert (LcC : length (cstored mx my y) = length Y).
  { rewrite <- Lyy. clear. revert y; induction my as [|[f|] my IH]; intros [|k y]; cbn [cstored length]; auto. }
  rewrite app_assoc, V3 by (rewrite ?app_length; lia). fold L.
  assert (Ix : inmap mx x N).
  { apply (inmap_in mx X); auto. rewrite <- (app_nil_r N), gx_msizes by auto. exact Hx. }
  assert (Iy : inmap mf y N1).
  { apply inmap_ymf. apply (inmap_in my Y); auto. rewrite <- (app_nil_r N), gx_msizes by auto. rewrite <- (gx_msizes my Y N D) by auto. exact Hy. }
  assert (IL : forall d', In d' L -> length d' = length D).
  { intros d' H. subst L C. destruct sd; [now apply indices_length in H|]. destruct H as [<-|[]]; auto. }
  rewrite !Rmult_1_r.
  (* dense side *)
  transitivity (Rsum (fun n0 => Rsum (fun d' => el (tv t) (stored mx x ++ stored my y ++ n0 ++ d') * deltas my y n0) L * deltas mx x n0) (indices N)).
  2:{ apply Rsum_ext. intros n0 Hn0. rewrite <- Rsum_scal_r. apply Rsum_ext. intros d' Hd'. apply indices_length in Hn0.
      rewrite (deltas_app mx), (deltas_app my) by (rewrite Hn0; auto). ring. }
  rewrite (Rsum_deltas mx x X N (fun n0 => Rsum (fun d' => el (tv t) (stored mx x ++ stored my y ++ n0 ++ d') * deltas my y n0) L)) by auto.
  fold N1.
  transitivity (Rsum (fun n0 => (Rsum (fun d' => el (tv t) (stored mx x ++ stored my y ++ gn_ mx x n0 ++ d')) L * xdeltas mx my y x) * deltas mf y n0) (indices N1)).
  2:{ apply Rsum_ext. intros n0 Hn0. apply indices_length in Hn0. rewrite Rmult_assoc, <- Rsum_scal_r. apply Rsum_ext. intros d' Hd'.
      rewrite deltas_split; auto.
      - fold mf. ring.
      - rewrite Lxx. now apply short_single.
      - rewrite Hn0, LN1. auto. }
  rewrite (Rsum_deltas mf y Y N1 (fun n0 => Rsum (fun d' => el (tv t) (stored mx x ++ stored my y ++ gn_ mx x n0 ++ d')) L * xdeltas mx my y x)).
  2: auto. 2: auto. 2: auto. 2: (rewrite LN1; auto). 2: auto.
  fold N2. rewrite <- Rsum_scal_r. apply Rsum_ext. intros n0 Hn0. f_equal. apply Rsum_ext. intros d' Hd'.
  pose proof (indices_length _ _ Hn0) as Ln0. specialize (IL d' Hd').
  rewrite <- !app_assoc. specialize (V2 x (cstored mx my y) [] (n0 ++ d')). cbn [app] in V2.
  rewrite V2; cbn [length]; rewrite ?app_length; try lia.
  rewrite gx_app, gn_app by (rewrite Ln0, LN2; auto). unfold mf. rewrite gn_cstored. fold mf.
  assert (Z : forall f, In f (targets mf) -> nth f n0 O = O).
  { intros f Hf. apply (in_zero N2 n0 f); auto.
    - rewrite LN2. eapply Forall_forall in Tf; eauto.
    - unfold N2. apply gn_single; auto. rewrite LN1. eapply Forall_forall in Tf; eauto. }
  unfold mf at 1. rewrite gx_cstored by exact Z.
  specialize (V1 [] x (stored my y) (gn_ mf y n0 ++ d')). cbn [app] in V1. rewrite V1; cbn [length]; rewrite ?app_length, ?gn_length, ?stored_length; try lia.
  rewrite gx_app, gn_app by (rewrite gn_length, Ln0, LN2; auto).
  rewrite gx_stored; [reflexivity|]. intros f Hf.
  assert (Nf : ~ In f (targets mf)) by (intros H; now apply ymf_disjoint in H).
  rewrite nth_gn by auto. apply (in_zero N2 n0 f); auto.
  + rewrite LN2. eapply Forall_forall in Fx; eauto.
  + unfold N2. rewrite nth_gn by auto. unfold N1. apply gn_single; auto. eapply Forall_forall in Fx; eauto.
Qed.
