(** flip of dim axes; flip and transpose are involutions; toarray of results. *)
From Verif Require Import Prelude DenseModel AnalyticSpec DenseProofs NDArray NDProofs TensorModel TensorSpec TensorSpecOps TensorLemmas TensorBasic TensorSum TensorSumMain TensorShape TensorBin TensorArith.
From Coq Require Import Reals Lra.
Import List ListNotations.
Open Scope R_scope.

Theorem tflip_dim_ok t w : wf t -> to_features t -> Forall (fun k => k < dm t)%nat w ->
  exists r, tflip t w true = Ok r /\ wf r /\ to_features r /\ nn r = nn t /\ dm r = dm t /\ xm r = xm t /\ ym r = ym t /\ dsame (den r) (dflip_dim (den t) w).
Proof.
  intros W [Fx Fy] T. destruct w as [|w0 w'].
  - exists t. cbn [tflip]. repeat (split; [solve [auto|split; auto]|]). unfold dsame. cbn [dflip_dim flip_idx fold_left xs ys ns ds at_]. auto.
  - remember (w0 :: w') as w eqn:Ew. pose proof (wf_groups t W) as G. destruct (wf_pos4 t W) as (PX & PY & PN & PD).
    pose proof (wf_x t W) as Mox. pose proof (wf_y t W) as Moy.
    pose proof (den_groups _ _ _ _ _ G) as (Dx & Dy & Dn & Dd).
    set (X := sX t) in *. set (Y := sY t) in *. set (N := sN t) in *. set (D := sD t) in *.
    destruct G as [GS Lx Ly Ln Ld]. rewrite <- Ld in T.
    destruct (flip_ofold w (xd t + yd t + nn t) (tv t) (X ++ Y ++ N) D []) as (v & E & S & V); auto.
    { now rewrite app_nil_r, <- !app_assoc. } { rewrite !app_length; lia. }
    unfold tflip. rewrite Ew, <- Ew. cbn [negb andb]. rewrite E. cbn [rbind].
    destruct (Tensor_ok v X Y N D (xm t) (ym t) (xd t) (yd t) (dm t)) as (r & Er & Gr & Tr & Mx & My); auto.
    { now rewrite S. }
    exists r. split; [exact Er|].
    assert (Nr : nn r = nn t) by (rewrite <- (g_n _ _ _ _ _ Gr); auto).
    assert (Dr : dm r = dm t) by (rewrite <- (g_d _ _ _ _ _ Gr); auto).
    split. { apply (wf_of r _ _ _ _ Gr); auto; rewrite ?Mx, ?My, ?Ln, ?Ld; auto. }
    split. { split; rewrite ?Mx, ?My, Nr; auto. }
    do 4 (split; [auto|]).
    destruct (den_groups _ _ _ _ _ Gr) as (Rx & Ry & Rn & Rd). rewrite Mx in Rx; rewrite My in Ry.
    unfold dsame. rewrite Rx, Ry, Rn, Rd. cbn [dflip_dim xs ys ns ds at_]. rewrite Dx, Dy, Dd, Dn.
    split; [auto|]. split; [auto|]. split; [auto|]. split; [reflexivity|].
    intros x y n d Hx Hy Hn Hd. apply indices_length in Hx, Hy, Hn, Hd. rewrite msizes_length in Hx, Hy.
    rewrite <- Ln in Fx, Fy.
    unfold den. cbn [at_]. rewrite Mx, My, Tr. fold D.
    pose proof (V (stored (xm t) x ++ stored (ym t) y ++ n) d []) as Q. rewrite !app_nil_r, <- !app_assoc in Q.
    rewrite Q by (rewrite ?app_length, ?stored_length; lia).
    rewrite !deltas_app by (rewrite ?Hn; auto). reflexivity.
Qed.
(** the map, the axes kept by flip *)
Lemma tflip_kept t w r : wf t -> Forall (fun k => k < nn t)%nat w -> tflip t w false = Ok r -> nn r = nn t /\ xm r = xm t /\ ym r = ym t.
Proof.
  intros W T E. destruct w as [|w0 w']; [injection E as <-; auto|]. remember (w0 :: w') as w eqn:Ew.
  pose proof (wf_groups t W) as [GS Lx Ly Ln Ld]. rewrite <- Ln in T.
  destruct (flip_ofold w (xd t + yd t) (tv t) (sX t ++ sY t) (sN t) (sD t)) as (v & Ev & S & _); auto.
  { now rewrite <- app_assoc. } { rewrite app_length; lia. }
  destruct (Tensor_ok v (sX t) (sY t) (sN t) (sD t) (xm t) (ym t) (xd t) (yd t) (dm t)) as (r' & Er & Gr & Tr & Mx & My); auto. { now rewrite S. }
  unfold tflip in E. rewrite Ew, <- Ew in E. cbn [negb andb] in E. destruct (existsb _ w); [discriminate|]. rewrite Ev in E. cbn [rbind] in E. rewrite Er in E. injection E as <-.
  split; auto. rewrite <- (g_n _ _ _ _ _ Gr). auto.
Qed.
Lemma flip1_twice sh i k : In i (indices sh) -> flip1 sh (flip1 sh i k) k = i.
Proof.
  intros H. destruct (Nat.lt_ge_cases k (length sh)) as [L|L].
  - pose proof (in_nth sh i k H L) as Q. pose proof (indices_length _ _ H) as Li. unfold flip1.
    rewrite (nth_indep sh 1%nat 0%nat) by auto. rewrite nth_upd_eq by lia.
    replace (nth k sh 0 - 1 - (nth k sh 0 - 1 - nth k i 0))%nat with (nth k i 0%nat) by lia.
    clear - L Li. revert i k L Li; induction sh as [|s sh IH]; intros [|j i] [|k] L Li; cbn in *; try lia; auto. f_equal. apply IH; lia.
  - apply indices_length in H. unfold flip1. assert (K : forall a (i : list nat), (length i <= k)%nat -> upd_nth k a i = i).
    { clear. intros a i. revert i; induction k as [|k IH]; intros [|j i] L; cbn in *; try lia; auto. f_equal. apply IH. lia. }
    rewrite !K; auto; try lia. rewrite K; lia.
Qed.
Lemma flip1_in sh i k : In i (indices sh) -> In (flip1 sh i k) (indices sh).
Proof.
  rewrite !In_indices. intros H. unfold flip1. revert k; induction H as [|j s i sh Hj H IH]; intros [|k]; cbn [upd_nth nth]; constructor; auto; lia.
Qed.
Lemma flip_in sh w : forall i, In i (indices sh) -> In (flip_idx sh w i) (indices sh).
Proof. unfold flip_idx. induction w as [|k w IH]; intros i H; cbn [fold_left]; auto. apply IH. now apply flip1_in. Qed.
Lemma flip_twice sh w : forall i, In i (indices sh) -> flip_idx sh w (flip_idx sh w i) = i.
Proof.
  induction w as [|k w IH]; intros i H; [reflexivity|]. change (flip_idx sh (k :: w)) with (fun i => flip_idx sh w (flip1 sh i k)). cbn beta.
  rewrite flip_idx_comm, <- flip_idx_comm. rewrite <- (flip_idx_comm sh w (flip1 sh i k)). rewrite flip1_twice by auto. now apply IH.
Qed.
(** flipping twice gives the tensor back *)
Theorem tflip_twice t w : wf t -> to_features t -> Forall (fun k => k < nn t)%nat w ->
  (forall k, In k w -> ~ In k (targets (xm t)) /\ ~ In k (targets (ym t))) ->
  exists r r', tflip t w false = Ok r /\ tflip r w false = Ok r' /\ dsame (den r') (den t).
Proof.
  intros W F T NM. destruct (tflip_ok t w W F T NM) as (r & Er & Wr & Fr & Dr). destruct (tflip_kept t w r W T Er) as (Nr & Mx & My).
  destruct (tflip_ok r w Wr Fr) as (r' & Er' & _ & _ & Dr'). { now rewrite Nr. } { now rewrite Mx, My. }
  exists r, r'. split; [exact Er|]. split; [exact Er'|]. destruct Dr as (E1 & E2 & E3 & E4 & V). destruct Dr' as (E1' & E2' & E3' & E4' & V').
  cbn [dflip xs ys ns ds at_] in *. unfold dsame. rewrite E1', E2', E3', E4'. do 4 (split; [congruence|]). intros x y n d Hx Hy Hn Hd.
  rewrite V' by congruence. rewrite V; auto. + rewrite E3. f_equal. apply flip_twice. congruence. + apply flip_in. exact Hn.
Qed.
Theorem tflip_dim_twice t w : wf t -> to_features t -> Forall (fun k => k < dm t)%nat w ->
  exists r r', tflip t w true = Ok r /\ tflip r w true = Ok r' /\ dsame (den r') (den t).
Proof.
  intros W F T. destruct (tflip_dim_ok t w W F T) as (r & Er & Wr & Fr & _ & Nd & _ & _ & Dr).
  destruct (tflip_dim_ok r w Wr Fr) as (r' & Er' & _ & _ & _ & _ & _ & _ & Dr'). { now rewrite Nd. }
  exists r, r'. split; [exact Er|]. split; [exact Er'|]. destruct Dr as (E1 & E2 & E3 & E4 & V). destruct Dr' as (E1' & E2' & E3' & E4' & V').
  cbn [dflip_dim xs ys ns ds at_] in *. unfold dsame. rewrite E1', E2', E3', E4'. do 4 (split; [congruence|]). intros x y n d Hx Hy Hn Hd.
  rewrite V' by congruence. rewrite V; auto. + rewrite E4. f_equal. apply flip_twice. congruence. + apply flip_in. exact Hd.
Qed.
(** transposing twice gives the tensor back *)
Theorem ttranspose_twice t : wf t -> transposable t ->
  exists r r', ttranspose t = Ok r /\ ttranspose r = Ok r' /\ dsame (den r') (den t).
Proof.
  intros W Tr. destruct (ttranspose_ok t W Tr) as (r & Er & Wr & _ & Dr).
  assert (L : xd r = yd t /\ yd r = xd t).
  { pose proof (wf_groups r Wr) as G. pose proof (wf_groups t W) as G'. destruct (den_groups _ _ _ _ _ G) as (K1 & K2 & _), (den_groups _ _ _ _ _ G') as (K3 & K4 & _).
    destruct Dr as (E1 & E2 & _). cbn [dtrans xs ys] in E1, E2. rewrite <- (g_x _ _ _ _ _ G), <- (g_y _ _ _ _ _ G), <- (g_x _ _ _ _ _ G'), <- (g_y _ _ _ _ _ G').
    split; [rewrite <- (msizes_length (xm r) (sX r) (sN r ++ sD r)), <- K1, E1, K4|rewrite <- (msizes_length (ym r) (sY r) (sN r ++ sD r)), <- K2, E2, K3]; apply msizes_length. }
  destruct L as [L1 L2]. destruct (ttranspose_ok r Wr) as (r' & Er' & _ & _ & Dr'). { unfold transposable in *. rewrite L1, L2. destruct Tr as [Tr|[Tr|[Tr|Tr]]]; [tauto|tauto|tauto|]. right. right. right.
    unfold sX, sY. rewrite L1, L2. 
    assert (S : shp (tv r) = sY t ++ sX t ++ sN t ++ sD t).
    { apply (ttranspose_shape t r W); [right; right; right; exact Tr|exact Er]. }
    rewrite S. apply Forall_app in Tr as [T1 T2]. pose proof (wf_groups t W) as [_ G1 G2 _ _]. rewrite <- G1, <- G2.
    rewrite firstn_app, firstn_all, Nat.sub_diag, skipn_app, skipn_all, Nat.sub_diag. cbn [firstn skipn app]. rewrite app_nil_r.
    rewrite firstn_app, firstn_all, Nat.sub_diag. cbn [firstn]. rewrite app_nil_r. apply Forall_app. auto. }
  exists r, r'. split; [exact Er|]. split; [exact Er'|]. destruct Dr as (E1 & E2 & E3 & E4 & V). destruct Dr' as (E1' & E2' & E3' & E4' & V').
  cbn [dtrans xs ys ns ds at_] in *. unfold dsame. rewrite E1', E2', E3', E4'. do 4 (split; [congruence|]). intros x y n d Hx Hy Hn Hd.
  rewrite V' by congruence. rewrite V; auto.
Qed.

(** *** toarray of the result of an elementwise operation *)
Lemma toarray_map t r f : wf t -> wf r -> dsame (den r) (dmap f (den t)) ->
  exists a b, toarray t = Ok a /\ toarray r = Ok b /\ shp b = shp a /\ forall i, In i (indices (shp a)) -> el b i = f (el a i).
Proof.
  intros Wt Wr D. destruct (toarray_den t Wt) as (a & Ea & Sa & Va). destruct (toarray_den r Wr) as (b & Eb & Sb & Vb).
  exists a, b. split; [exact Ea|]. split; [exact Eb|]. destruct D as (E1 & E2 & E3 & E4 & V). cbn [dmap xs ys ns ds at_] in E1, E2, E3, E4, V.
  split; [rewrite Sa, Sb; congruence|]. rewrite Sa. intros i Hi.
  apply in_indices_app in Hi as [Hx Hi]. apply in_indices_app in Hi as [Hy Hi]. apply in_indices_app in Hi as [Hn Hd].
  set (x := firstn _ i) in *. set (i1 := skipn (length (xs (den t))) i) in *. set (y := firstn _ i1) in *. set (i2 := skipn (length (ys (den t))) i1) in *. set (n := firstn _ i2) in *. set (d := skipn _ i2) in *.
  assert (Ei : i = x ++ y ++ n ++ d). { unfold x, y, n, d, i2, i1. now rewrite !firstn_skipn. }
  rewrite Ei. rewrite Va by auto. rewrite Vb by congruence. apply V; congruence.
Qed.
