(** toarray, constructor, negation, scalar arithmetic, drop_dim. *)
From Verif Require Import Prelude DenseModel AnalyticSpec DenseProofs NDArray NDProofs TensorModel TensorSpec TensorLemmas.
From Coq Require Import Reals Lra.
Import List ListNotations.
Open Scope R_scope.

Lemma skipn_skipn {A} a b (l : list A) : skipn a (skipn b l) = skipn (a + b) l.
Proof. rewrite Nat.add_comm. revert l; induction b; intros [|h l]; cbn; auto. now rewrite skipn_nil. Qed.
Record groups (t : tensor) (X Y N D : list nat) : Prop := mkGr {
  g_shp : shp (tv t) = X ++ Y ++ N ++ D;
  g_x : length X = xd t; g_y : length Y = yd t; g_n : length N = nn t; g_d : length D = dm t }.
Lemma groups_sX t X Y N D : groups t X Y N D -> sX t = X /\ sY t = Y /\ sN t = N /\ sD t = D.
Proof.
  intros [E L1 L2 L3 L4]. unfold sX, sY, sN, sD. rewrite E, <- L1, <- L2, <- L3.
  rewrite firstn_app, firstn_all, Nat.sub_diag. cbn [firstn]. rewrite app_nil_r.
  rewrite skipn_app, skipn_all, Nat.sub_diag. cbn [skipn app].
  rewrite firstn_app, firstn_all, Nat.sub_diag. cbn [firstn]. rewrite app_nil_r.
  rewrite (app_assoc X), skipn_app, skipn_all2 by (rewrite app_length; lia).
  rewrite app_length, Nat.sub_diag. cbn [skipn app].
  rewrite firstn_app, firstn_all, Nat.sub_diag. cbn [firstn]. rewrite app_nil_r.
  rewrite (app_assoc (X ++ Y)), skipn_app, skipn_all2 by (rewrite !app_length; lia).
  rewrite !app_length, Nat.sub_diag. auto.
Qed.
Lemma wf_groups t : wf t -> groups t (sX t) (sY t) (sN t) (sD t).
Proof.
  intros [L _ _ _]. unfold sX, sY, sN, sD. constructor.
  - rewrite <- (firstn_skipn (xd t) (shp (tv t))) at 1. f_equal.
    rewrite <- (firstn_skipn (yd t) (skipn (xd t) (shp (tv t)))) at 1. f_equal.
    rewrite skipn_skipn, (Nat.add_comm (yd t)).
    rewrite <- (firstn_skipn (nn t) (skipn (xd t + yd t) (shp (tv t)))) at 1. f_equal.
    now rewrite skipn_skipn, (Nat.add_comm (nn t)).
  - rewrite firstn_length; lia.
  - rewrite firstn_length, skipn_length; lia.
  - rewrite firstn_length, skipn_length; lia.
  - rewrite skipn_length; lia.
Qed.

(** The constructor on an array given by groups *)
Lemma Tensor_ok v X Y N D mx my x y d : shp v = X ++ Y ++ N ++ D -> x = length X -> y = length Y -> d = length D ->
  exists t, Tensor v x y d mx my = Ok t /\ groups t X Y N D /\ tv t = v /\ xm t = mx /\ ym t = my.
Proof.
  intros E -> -> ->. unfold Tensor, ndim. rewrite E, !app_length.
  replace (Nat.ltb _ _) with false by (symmetry; apply Nat.ltb_ge; lia).
  eexists; split; [reflexivity|]. split; [|auto]. constructor; cbn [tv xd yd nn dm]; auto. lia.
Qed.

(** den and wf on groups *)
Lemma den_groups t X Y N D : groups t X Y N D ->
  xs (den t) = msizes (xm t) X (N ++ D) /\ ys (den t) = msizes (ym t) Y (N ++ D) /\ ns (den t) = N /\ ds (den t) = D.
Proof. intros G. destruct (groups_sX _ _ _ _ _ G) as (E1 & E2 & E3 & E4). unfold den; cbn. now rewrite E1, E2, E3, E4. Qed.
Lemma wf_of t X Y N D : groups t X Y N D -> posl X -> posl Y -> posl N -> posl D ->
  map_ok (xm t) X (length N + length D) -> map_ok (ym t) Y (length N + length D) -> wf t.
Proof.
  intros G PX PY PN PD Mx My. destruct (groups_sX _ _ _ _ _ G) as (E1 & E2 & E3 & E4). destruct G as [E L1 L2 L3 L4].
  constructor.
  - rewrite E, !app_length; lia.
  - rewrite E. apply pos_app; split; auto. apply pos_app; split; auto. apply pos_app; split; auto.
  - rewrite E1, <- L3, <- L4; auto.
  - rewrite E2, <- L3, <- L4; auto.
Qed.
Lemma wf_pos4 t : wf t -> posl (sX t) /\ posl (sY t) /\ posl (sN t) /\ posl (sD t).
Proof.
  intros W. pose proof (wf_groups t W) as G. pose proof (wf_pos t W) as P. rewrite (g_shp _ _ _ _ _ G) in P.
  apply pos_app in P as [? P]. apply pos_app in P as [? P]. apply pos_app in P as [? ?]. auto.
Qed.

(** ---- toarray ---- *)
Theorem toarray_den t : wf t -> exists r, toarray t = Ok r /\
  shp r = xs (den t) ++ ys (den t) ++ ns (den t) ++ ds (den t) /\
  forall x y n d, In x (indices (xs (den t))) -> In y (indices (ys (den t))) ->
    In n (indices (ns (den t))) -> In d (indices (ds (den t))) ->
    el r (x ++ y ++ n ++ d) = at_ (den t) x y n d.
Proof.
  intros W. pose proof (wf_groups t W) as G. destruct (wf_pos4 t W) as (PX & PY & PN & PD).
  destruct (wf_x t W) as (SX & _ & TX). destruct (wf_y t W) as (SY & _ & TY).
  pose proof (g_n _ _ _ _ _ G) as Ln. pose proof (g_d _ _ _ _ _ G) as Ld.
  pose proof (g_x _ _ _ _ _ G) as Lx. pose proof (g_y _ _ _ _ _ G) as Ly.
  assert (LN : length (sN t ++ sD t) = (nn t + dm t)%nat) by (rewrite app_length; lia).
  unfold toarray, arr_expand_diag.
  destruct (expand_diag_ok (xm t) 0 0 (xd t + yd t) (tv t) [] (sX t) (sY t) (sN t ++ sD t)) as (r1 & E1 & S1 & V1).
  { rewrite (g_shp _ _ _ _ _ G). reflexivity. }
  { reflexivity. } { cbn; lia. } { auto. } { now rewrite LN. } { apply wf_pos; auto. }
  rewrite E1. cbn [rbind]. cbn [app] in S1.
  assert (P1 : posl (shp r1)).
  { rewrite S1. apply pos_app. split.
    - clear -SX PX PN PD TX LN. rewrite <- LN in TX.
      assert (PND : posl (sN t ++ sD t)) by (apply pos_app; auto).
      revert SX PX TX. generalize (sX t) as s. induction (xm t) as [|[f|] m IH]; intros s SX PX TX; destruct s as [|a s]; cbn in *; auto.
      + inversion PX; subst. inversion TX; subst. constructor; [|apply IH; tauto].
        eapply Forall_forall in PND; [exact PND|]. now apply nth_In.
      + inversion PX; subst. constructor; auto. apply IH; auto.
    - apply pos_app; split; auto. apply pos_app; auto. }
  destruct (expand_diag_ok (ym t) 0 (xd t) (xd t + yd t) r1 (msizes (xm t) (sX t) (sN t ++ sD t)) (sY t) [] (sN t ++ sD t)) as (r & E & S & V).
  { exact S1. } { rewrite msizes_length; lia. } { rewrite msizes_length. cbn [length]; lia. } { auto. } { now rewrite LN. } { auto. }
  exists r. rewrite E. split; [reflexivity|]. cbn [den xs ys ns ds at_]. cbn [app] in S. split; [exact S|].
  intros x y n d Hx Hy Hn Hd. specialize (V x y [] (n ++ d)). cbn [app] in V.
  assert (Hnd : In (n ++ d) (indices (sN t ++ sD t))) by (apply in_indices_app2; auto).
  rewrite V; cbn; auto. specialize (V1 [] x (stored (ym t) y) (n ++ d)). cbn [app] in V1.
  rewrite V1; cbn; auto. eapply stored_in; eauto.
Qed.

Lemma msizes_nil sx nd : msizes [] sx nd = sx. Proof. reflexivity. Qed.
Lemma deltas_nil x nd : deltas [] x nd = 1. Proof. reflexivity. Qed.
Lemma stored_nil x : stored [] x = x. Proof. reflexivity. Qed.
Lemma map_ok_nil sx r : map_ok [] sx r.
Proof. repeat split; constructor. Qed.
Lemma msizes_pos m sx sn : posl sx -> posl sn -> Forall (fun f => f < length sn)%nat (targets m) -> posl (msizes m sx sn).
Proof.
  intros PX PN. revert sx PX. induction m as [|[f|] m IH]; intros [|a s] PX T; cbn in *; auto.
  - inversion PX; inversion T; subst. constructor; [|apply IH; auto]. eapply Forall_forall in PN; [exact PN|]. now apply nth_In.
  - inversion PX; subst. constructor; auto. apply IH; auto.
Qed.
Lemma wf_den_pos t : wf t -> posl (xs (den t)) /\ posl (ys (den t)) /\ posl (ns (den t)) /\ posl (ds (den t)).
Proof.
  intros W. destruct (wf_pos4 t W) as (PX & PY & PN & PD). pose proof (wf_groups t W) as G.
  cbn [den xs ys ns ds]. assert (posl (sN t ++ sD t)) by (apply pos_app; auto).
  pose proof (g_n _ _ _ _ _ G). pose proof (g_d _ _ _ _ _ G).
  repeat split; auto; apply msizes_pos; auto.
  - destruct (wf_x t W) as (_ & _ & T). rewrite app_length. replace (_ + _)%nat with (nn t + dm t)%nat by lia. auto.
  - destruct (wf_y t W) as (_ & _ & T). rewrite app_length. replace (_ + _)%nat with (nn t + dm t)%nat by lia. auto.
Qed.

(** A tensor with the same axes and another array of the same shape *)
Lemma retensor t v : wf t -> shp v = shp (tv t) ->
  exists r, Tensor v (xd t) (yd t) (dm t) (xm t) (ym t) = Ok r /\ wf r /\
    xd r = xd t /\ yd r = yd t /\ nn r = nn t /\ dm r = dm t /\ xm r = xm t /\ ym r = ym t /\ tv r = v /\
    xs (den r) = xs (den t) /\ ys (den r) = ys (den t) /\ ns (den r) = ns (den t) /\ ds (den r) = ds (den t).
Proof.
  intros W E. pose proof (wf_groups t W) as G. destruct (wf_pos4 t W) as (PX & PY & PN & PD).
  destruct (Tensor_ok v (sX t) (sY t) (sN t) (sD t) (xm t) (ym t) (xd t) (yd t) (dm t)) as (r & Er & Gr & Ev & Ex & Ey).
  { rewrite E. apply (g_shp _ _ _ _ _ G). }
  { now rewrite (g_x _ _ _ _ _ G). } { now rewrite (g_y _ _ _ _ _ G). } { now rewrite (g_d _ _ _ _ _ G). }
  exists r. split; [exact Er|].
  assert (Ln : (length (sN t) + length (sD t) = nn t + dm t)%nat) by (rewrite (g_n _ _ _ _ _ G), (g_d _ _ _ _ _ G); auto).
  split.
  { eapply wf_of; eauto; rewrite ?Ex, ?Ey, Ln; [apply (wf_x t W)|apply (wf_y t W)]. }
  pose proof (g_x _ _ _ _ _ Gr). pose proof (g_y _ _ _ _ _ Gr). pose proof (g_n _ _ _ _ _ Gr). pose proof (g_d _ _ _ _ _ Gr).
  pose proof (g_x _ _ _ _ _ G). pose proof (g_y _ _ _ _ _ G). pose proof (g_n _ _ _ _ _ G). pose proof (g_d _ _ _ _ _ G).
  destruct (den_groups _ _ _ _ _ Gr) as (A1 & A2 & A3 & A4). destruct (den_groups _ _ _ _ _ G) as (B1 & B2 & B3 & B4).
  rewrite Ex in A1. rewrite Ey in A2. repeat split; auto; congruence.
Qed.

(** entrywise operations that commute with the deltas *)
Lemma entrywise t f : wf t -> (forall v e1 e2, (e1 = 0 \/ e1 = 1) -> (e2 = 0 \/ e2 = 1) -> f v * e1 * e2 = f (v * e1 * e2)) ->
  exists r, Tensor (np_map f (tv t)) (xd t) (yd t) (dm t) (xm t) (ym t) = Ok r /\ wf r /\ dsame (den r) (dmap f (den t)).
Proof.
  intros W H. destruct (retensor t (np_map f (tv t)) W eq_refl) as (r & Er & Wr & _ & _ & _ & _ & Ex & Ey & Ev & S1 & S2 & S3 & S4).
  exists r. split; [auto|]. split; [auto|]. unfold dsame. repeat split; auto. intros x y n d _ _ _ _.
  cbn [den dmap at_]. rewrite Ev, Ex, Ey. cbn [np_map el]. apply H.
  - clear. revert x. induction (xm t) as [|[g|] m IH]; intros [|k x]; cbn [deltas]; auto.
    unfold delta. destruct (IH x) as [-> | ->]; destruct (Nat.eqb k _); lra.
  - clear. revert y. induction (ym t) as [|[g|] m IH]; intros [|k y]; cbn [deltas]; auto.
    unfold delta. destruct (IH y) as [-> | ->]; destruct (Nat.eqb k _); lra.
Qed.
Theorem tneg_ok t : wf t -> exists r, tneg t = Ok r /\ wf r /\ dsame (den r) (dneg (den t)).
Proof. intros W. unfold tneg, dneg. apply entrywise; auto. intros. ring. Qed.
Theorem tdrop_ok t : wf t -> exists r, tdrop t = Ok r /\ wf r /\ dsame (den r) (ddrop (den t)).
Proof.
  intros W. pose proof (wf_groups t W) as G. destruct (wf_pos4 t W) as (PX & PY & PN & PD).
  assert (Ln : (length (sN t) + length (sD t) = nn t + dm t)%nat) by (rewrite (g_n _ _ _ _ _ G), (g_d _ _ _ _ _ G); auto).
  unfold tdrop. destruct (Tensor_ok (tv t) (sX t) (sY t) (sN t ++ sD t) [] (xm t) (ym t) (xd t) (yd t) 0) as (r & Er & Gr & Ev & Ex & Ey).
  { rewrite app_nil_r. apply (g_shp _ _ _ _ _ G). }
  { now rewrite (g_x _ _ _ _ _ G). } { now rewrite (g_y _ _ _ _ _ G). } { reflexivity. }
  exists r. split; [exact Er|]. split.
  { eapply wf_of; [exact Gr|auto|auto|now apply pos_app|apply Forall_nil| |]; rewrite ?Ex, ?Ey, app_length; cbn [length]; rewrite Nat.add_0_r, Ln; apply W. }
  destruct (den_groups _ _ _ _ _ Gr) as (A1 & A2 & A3 & A4). destruct (den_groups _ _ _ _ _ G) as (B1 & B2 & B3 & B4).
  unfold dsame. cbn [ddrop xs ys ns ds at_]. rewrite A1, A2, A3, A4, B1, B2, B3, B4, Ex, Ey, app_nil_r. repeat split; auto.
  intros x y n d _ _ Hn Hd. cbn in Hd. destruct Hd as [<-|[]].
  cbn [den at_]. rewrite Ev, Ex, Ey, !app_nil_r.
  now rewrite !firstn_skipn.
Qed.

(** ---- arithmetic with a number ---- *)
Theorem tbin_add_num t c op : wf t -> additive op = true ->
  exists r, tbin_num t c op = Ok r /\ wf r /\ dsame (den r) (dmap (fun v => op_fun op v c) (den t)).
Proof.
  intros W A. unfold tbin_num. destruct (Req_EM_T c 0) as [->|N0].
  { assert (I : forall op, (forall v, op_fun op v 0 = v) -> dsame (den t) (dmap (fun v => op_fun op v 0) (den t))).
    { intros o H. unfold dsame. repeat split; auto. intros. cbn [dmap at_]. now rewrite H. }
    destruct op; try discriminate.
    - exists t. split; [auto|]. split; [auto|]. apply I. intros; cbn; lra.
    - exists t. split; [auto|]. split; [auto|]. apply I. intros; cbn; lra.
    - destruct (tneg_ok t W) as (r & Er & Wr & S1 & S2 & S3 & S4 & S5). exists r. split; [auto|]. split; [auto|].
      unfold dsame. repeat split; auto. intros. rewrite S5 by auto. cbn. lra. }
  replace (if (if Req_EM_T c 1 then match op with MUL | DIV => true | _ => false end else false) then Ok t else _)
    with (let! a := toarray t in Tensor (np_map (fun v => op_fun op v c) a) (xd t) (yd t) (dm t) [] []).
  2:{ rewrite A. destruct op; try discriminate; destruct (Req_EM_T c 1); reflexivity. }
  destruct (toarray_den t W) as (a & -> & Sa & Va). cbn [rbind].
  pose proof (wf_groups t W) as G. destruct (wf_den_pos t W) as (PX & PY & PN & PD).
  destruct (Tensor_ok (np_map (fun v => op_fun op v c) a) _ _ _ _ [] [] (xd t) (yd t) (dm t) Sa) as (r & Er & Gr & Ev & Ex & Ey).
  { cbn [den xs]. rewrite msizes_length, (g_x _ _ _ _ _ G); auto. }
  { cbn [den ys]. rewrite msizes_length, (g_y _ _ _ _ _ G); auto. }
  { cbn [den ds]. now rewrite (g_d _ _ _ _ _ G). }
  exists r. split; [exact Er|]. split.
  { eapply wf_of; eauto; rewrite ?Ex, ?Ey; apply map_ok_nil. }
  destruct (den_groups _ _ _ _ _ Gr) as (A1 & A2 & A3 & A4). rewrite Ex in A1. rewrite Ey in A2. cbn [msizes] in *.
  unfold dsame. cbn [dmap xs ys ns ds at_]. rewrite A1, A2, A3, A4. repeat split; auto.
  intros x y n d Hx Hy Hn Hd. rewrite <- Va by auto. unfold den; cbn [at_]. rewrite Ev, Ex, Ey. cbn [stored deltas np_map el]. ring.
Qed.
Theorem tbin_mul_num t c op : wf t -> op = MUL \/ op = DIV -> c <> 0 ->
  exists r, tbin_num t c op = Ok r /\ wf r /\ dsame (den r) (dmap (fun v => op_fun op v c) (den t)).
Proof.
  intros W A N0. unfold tbin_num. destruct (Req_EM_T c 0) as [?|_]; [contradiction|].
  destruct (Req_EM_T c 1) as [->|N1].
  { exists t. split; [now destruct A as [-> | ->]|]. split; [auto|]. unfold dsame. repeat split; auto. intros. cbn [dmap at_]. destruct A as [-> | ->]; cbn [op_fun]; field. }
  replace (additive op) with false by (destruct A as [-> | ->]; reflexivity).
  destruct (entrywise t (fun v => op_fun op v c) W) as (r & Er & Wr & Sr).
  { intros. destruct A as [-> | ->]; cbn; field; auto. }
  exists r. auto.
Qed.
Lemma tbin_mul_zero t : tbin_num t 0 MUL = Ok (tnum 0).
Proof. unfold tbin_num. destruct (Req_EM_T 0 0); [auto|lra]. Qed.
Lemma tbin_rdiv_zero t : tbin_num t 0 RDIV = Ok (tnum 0).
Proof. unfold tbin_num. destruct (Req_EM_T 0 0); [auto|lra]. Qed.
Lemma tbin_div_zero t : tbin_num t 0 DIV = Raise ZeroDivisionError.
Proof. unfold tbin_num. destruct (Req_EM_T 0 0); [auto|lra]. Qed.
(** c / t for a tensor without diagonal axes *)
Theorem tbin_rdiv_num t c : wf t -> unmapped (xm t) -> unmapped (ym t) -> c <> 0 ->
  exists r, tbin_num t c RDIV = Ok r /\ wf r /\ dsame (den r) (dmap (fun v => c / v) (den t)).
Proof.
  intros W Ux Uy N0. unfold tbin_num. destruct (Req_EM_T c 0) as [?|_]; [contradiction|].
  replace (if Req_EM_T c 1 then _ else _) with false by (destruct (Req_EM_T c 1); reflexivity). cbn [additive].
  destruct (retensor t (np_map (fun v => op_fun RDIV v c) (tv t)) W eq_refl) as (r & Er & Wr & _ & _ & _ & _ & Ex & Ey & Ev & S1 & S2 & S3 & S4).
  exists r. split; [auto|]. split; [auto|]. unfold dsame. repeat split; auto. intros x y n d _ _ _ _.
  cbn [den dmap at_]. rewrite Ev, Ex, Ey. cbn [np_map el op_fun].
  assert (D1 : forall m, targets m = [] -> forall x nd, deltas m x nd = 1).
  { induction m as [|[g|] m IH]; intros H [|k z] nd; cbn in *; auto; discriminate. }
  rewrite !D1 by auto. rewrite !Rmult_1_r. reflexivity.
Qed.
