(** Tensor.sum over dim, transpose, flip, expand. *)
From Verif Require Import Prelude DenseModel AnalyticSpec DenseProofs NDArray NDProofs TensorModel TensorSpec TensorSpecOps TensorLemmas TensorBasic TensorSum TensorSumMain.
From Coq Require Import Reals Lra Sorted Permutation.
Import List ListNotations.
Open Scope R_scope.

(** *** sum(False): only the dim axes *)
Theorem tsum_dims_ok t : wf t -> to_features t ->
  exists r, tsum t SVFalse true = Ok r /\ wf r /\ to_features r /\ dsame (den r) (dsum_axes (den t) false true).
Proof.
  intros W [Fx Fy]. pose proof (wf_groups t W) as G. destruct (wf_pos4 t W) as (PX & PY & PN & PD).
  destruct (wf_x t W) as (Sx & NDx & _). destruct (wf_y t W) as (Sy & NDy & _).
  pose proof (den_groups _ _ _ _ _ G) as (Dx & Dy & Dn & Dd).
  set (X := sX t) in *. set (Y := sY t) in *. set (N := sN t) in *. set (D := sD t) in *.
  destruct G as [GS Lx Ly Ln Ld].
  destruct (np_sum_range (tv t) (X ++ Y ++ N) D []) as (v & E & S & V).
  { rewrite GS, <- !app_assoc, app_nil_r. reflexivity. }
  unfold tsum. replace (xd t + yd t + nn t)%nat with (length (X ++ Y ++ N)) by (rewrite !app_length; lia). rewrite <- Ld, E. cbn [rbind].
  destruct (Tensor_ok v X Y N [] (xm t) (ym t) (xd t) (yd t) 0) as (r & Er & Gr & Tr & Mx & My); auto.
  { rewrite S, <- !app_assoc. reflexivity. }
  exists r. split; [exact Er|].
  assert (Nr : nn r = nn t) by (rewrite <- (g_n _ _ _ _ _ Gr); auto).
  split. { apply (wf_of r _ _ _ _ Gr); auto; try constructor; rewrite ?Mx, ?My; cbn [length]; rewrite ?Nat.add_0_r, ?Ln; auto. }
  split. { split; rewrite ?Mx, ?My, Nr; auto. }
  destruct (den_groups _ _ _ _ _ Gr) as (Rx & Ry & Rn & Rd). rewrite Mx in Rx; rewrite My in Ry.
  rewrite <- Ln in Fx, Fy.
  unfold dsame. rewrite Rx, Ry, Rn, Rd. cbn [dsum_axes xs ys ns ds at_]. rewrite Dx, Dy, Dd, Dn.
  rewrite !gx_msizes by auto. split; [auto|]. split; [auto|]. split; [auto|]. split; [reflexivity|].
  intros x y n d Hx Hy Hn Hd. cbn in Hd. destruct Hd as [<-|[]].
  rewrite sumR_map, (Rsum_list_prod (fun n' d' => at_ (den t) x y n' d')), Rsum_cons, Rsum_nil, Rplus_0_r.
  unfold den. cbn [at_]. rewrite Mx, My, Tr.
  apply indices_length in Hx, Hy, Hn. rewrite gx_length in Hx, Hy.
  replace (stored (xm t) x ++ stored (ym t) y ++ n ++ []) with ((stored (xm t) x ++ stored (ym t) y ++ n) ++ []) by (now rewrite <- !app_assoc).
  rewrite V by (auto; rewrite !app_length, !stored_length; lia).
  rewrite <- !Rsum_scal_r. apply Rsum_ext. intros d _. rewrite !deltas_app by (rewrite Hn; auto). rewrite <- !app_assoc, app_nil_r. reflexivity.
Qed.
(** sum(False, False) is not the identity: it turns dim axes into features *)
Lemma tsum_none_drop t : tsum t SVFalse false = tdrop t.
Proof. reflexivity. Qed.

(** *** Transposition of one group of axes *)
Definition permut (n : nat) (s : list nat) : Prop := Permutation (seq 0 n) s.
Lemma index_of_app k a b : ~ In k a -> index_of k (a ++ b) = option_map (fun j => length a + j)%nat (index_of k b).
Proof.
  induction a as [|h a IH]; intros H; cbn [app index_of length plus]; [destruct (index_of k b); auto|].
  destruct (Nat.eqb_spec h k); [subst; exfalso; apply H; now left|]. rewrite IH by (intros ?; apply H; now right). destruct (index_of k b); reflexivity.
Qed.
Lemma index_of_app1 k a b : In k a -> index_of k (a ++ b) = index_of k a.
Proof.
  induction a as [|h a IH]; intros H; cbn [app index_of]; [destruct H|]. destruct (Nat.eqb_spec h k); auto.
  destruct H as [->|H]; [congruence|]. now rewrite IH.
Qed.
Lemma index_of_seq s n k : (s <= k < s + n)%nat -> index_of k (seq s n) = Some (k - s)%nat.
Proof.
  revert s; induction n as [|n IH]; intros s H; [lia|]. cbn [seq index_of]. destruct (Nat.eqb_spec s k); [subst; now rewrite Nat.sub_diag|].
  rewrite IH by lia. cbn. f_equal. lia.
Qed.
Lemma index_of_In k l : In k l -> exists j, index_of k l = Some j /\ (j < length l)%nat /\ nth j l O = k.
Proof.
  induction l as [|h l IH]; intros H; [destruct H|]. cbn [index_of]. destruct (Nat.eqb_spec h k) as [->|N].
  - exists O. cbn. repeat split; lia.
  - destruct H as [->|H]; [congruence|]. destruct (IH H) as (j & E & L & V). rewrite E. exists (S j). cbn. repeat split; auto. lia.
Qed.
Lemma index_of_map p k l : index_of (p + k) (map (fun j => p + j)%nat l) = index_of k l.
Proof. induction l as [|h l IH]; cbn [map index_of]; auto. rewrite IH. destruct (Nat.eqb_spec (p + h) (p + k)), (Nat.eqb_spec h k); auto; lia. Qed.
Lemma permut_In n s k : permut n s -> (In k s <-> (k < n)%nat).
Proof. intros P. rewrite <- (Permutation_in' eq_refl P). rewrite in_seq. lia. Qed.
Lemma permut_length n s : permut n s -> length s = n.
Proof. intros P. apply Permutation_length in P. now rewrite seq_length in P. Qed.
Lemma seq_map_add p s n : seq (p + s) n = map (fun j => p + j)%nat (seq s n).
Proof. revert s; induction n as [|n IH]; intros s; cbn [seq map]; auto. f_equal. rewrite <- IH. f_equal. lia. Qed.
Lemma map_nth_seq0 (l : list nat) : map (fun k => nth k l O) (seq 0 (length l)) = l.
Proof. apply list_eq_nth. - now rewrite map_length, seq_length. - intros j Hj. rewrite map_length, seq_length in Hj. exact (nth_map_seq (fun k => nth k l O) (length l) j O Hj). Qed.
Lemma seq_shift0 P q : seq P q = map (fun j => P + j)%nat (seq 0 q).
Proof. now rewrite <- seq_map_add, Nat.add_0_r. Qed.
Lemma map_nth_seqn (l : list nat) n : length l = n -> map (fun k => nth k l O) (seq 0 n) = l.
Proof. intros <-. apply map_nth_seq0. Qed.
Lemma nth_error_nth_map {A} (f : nat -> A) n j d : (j < n)%nat -> nth j (map f (seq 0 n)) d = f j.
Proof. intros H. rewrite (nth_indep _ d (f O)) by (rewrite map_length, seq_length; auto). rewrite map_nth, seq_nth; auto. Qed.
Lemma unperm_app P s q d ip inn id : permut q s -> length ip = P -> length inn = q -> length id = d ->
  unperm (seq 0 P ++ map (fun j => P + j)%nat s ++ seq (P + q) d) (ip ++ inn ++ id) = ip ++ unperm s inn ++ id.
Proof.
  intros Hs LP Lq Ld. unfold unperm. rewrite !app_length, map_length, !seq_length, (permut_length _ _ Hs).
  rewrite seq_app, map_app. f_equal.
  - transitivity (map (fun k => nth k ip O) (seq 0 P)); [|now apply map_nth_seqn]. apply map_ext_in. intros k Hk. apply in_seq in Hk.
    rewrite index_of_app1 by (apply in_seq; lia). rewrite index_of_seq by lia. rewrite Nat.sub_0_r. rewrite app_nth1 by lia. reflexivity.
  - cbn [plus]. rewrite seq_app, map_app. f_equal.
    + etransitivity; [apply (f_equal (map _)), seq_shift0|]. rewrite map_map. apply map_ext_in. intros k Hk. apply in_seq in Hk.
      rewrite index_of_app by (rewrite in_seq; lia). rewrite index_of_app1 by (apply in_map; apply (permut_In q); auto; lia).
      rewrite index_of_map. destruct (index_of_In k s) as (j & E & L & V); [apply (permut_In q); auto; lia|]. rewrite E. cbn [option_map].
      rewrite seq_length, app_nth2 by lia. rewrite (permut_length _ _ Hs) in L. rewrite LP. replace (P + j - P)%nat with j by lia. rewrite app_nth1 by lia. reflexivity.
    + transitivity (map (fun k => nth k id O) (seq 0 d)); [|now apply map_nth_seqn]. etransitivity; [apply (f_equal (map _)), seq_shift0|]. rewrite map_map. apply map_ext_in. intros k Hk. apply in_seq in Hk.
      rewrite index_of_app by (rewrite in_seq; lia). rewrite index_of_app.
      2:{ rewrite in_map_iff. intros (j & Hj & Hi). apply (permut_In q) in Hi; auto. lia. }
      rewrite index_of_seq by lia. cbn [option_map]. rewrite seq_length, map_length, (permut_length _ _ Hs).
      rewrite app_assoc, app_nth2 by (rewrite app_length; lia). f_equal. rewrite app_length. lia.
Qed.
Lemma is_perm_ok n s : permut n s -> is_perm n s = true.
Proof.
  intros H. unfold is_perm. apply andb_true_intro. split; [apply Nat.eqb_eq; now apply permut_length|].
  apply forallb_forall. intros k Hk. apply existsb_exists. exists k. split; [|apply Nat.eqb_refl]. apply (permut_In n); auto. apply in_seq in Hk; lia.
Qed.
Lemma permut_block P q d s : permut q s -> permut (P + q + d) (seq 0 P ++ map (fun j => P + j)%nat s ++ seq (P + q) d).
Proof.
  intros H. unfold permut. rewrite <- Nat.add_assoc, seq_app, seq_app. cbn [plus]. apply Permutation_app_head. apply Permutation_app_tail.
  rewrite (seq_shift0 P q). now apply Permutation_map.
Qed.
Lemma np_transpose_block v A N D s : shp v = A ++ N ++ D -> permut (length N) s ->
  exists r, np_transpose v (seq 0 (length A) ++ map (fun j => length A + j)%nat s ++ seq (length A + length N) (length D)) = Ok r /\
    shp r = A ++ map (fun q => nth q N O) s ++ D /\
    forall a n d, length a = length A -> length n = length N -> length d = length D ->
      el r (a ++ n ++ d) = el v (a ++ unperm s n ++ d).
Proof.
  intros E H. unfold np_transpose, ndim. rewrite is_perm_ok.
  2:{ rewrite E, !app_length, Nat.add_assoc. now apply permut_block. }
  eexists; split; [reflexivity|]. cbn [shp el]. split.
  - rewrite E, !map_app, map_map. f_equal; [|f_equal].
    + transitivity (map (fun k => nth k A O) (seq 0 (length A))); [|now apply map_nth_seqn]. apply map_ext_in. intros k Hk. apply in_seq in Hk. rewrite app_nth1 by lia; auto.
    + apply map_ext_in. intros k Hk. apply (permut_In (length N)) in Hk; auto. rewrite app_nth2 by lia. rewrite app_nth1 by lia. f_equal; lia.
    + transitivity (map (fun k => nth k D O) (seq 0 (length D))); [|now apply map_nth_seqn]. etransitivity; [apply (f_equal (map _)), seq_shift0|]. rewrite map_map. apply map_ext_in. intros k Hk. apply in_seq in Hk.
      rewrite app_assoc, app_nth2 by (rewrite app_length; lia). f_equal. rewrite app_length; lia.
  - intros a n d La Ln Ld. now rewrite unperm_app.
Qed.

(** *** Axes of size 1 moved among themselves *)
Lemma filter_ne_id src s n : (src < s)%nat -> filter (fun k => negb (Nat.eqb k src)) (seq s n) = seq s n.
Proof. revert s; induction n as [|n IH]; intros s H; cbn [seq filter]; auto. destruct (Nat.eqb_spec s src); [lia|]. cbn [negb]. now rewrite IH by lia. Qed.
Lemma filter_ne_id2 src s n : (s + n <= src)%nat -> filter (fun k => negb (Nat.eqb k src)) (seq s n) = seq s n.
Proof. revert s; induction n as [|n IH]; intros s H; cbn [seq filter]; auto. destruct (Nat.eqb_spec s src); [lia|]. cbn [negb]. now rewrite IH by lia. Qed.
Lemma filter_ne src p : (src < p)%nat -> filter (fun k => negb (Nat.eqb k src)) (seq 0 p) = seq 0 src ++ seq (S src) (p - S src).
Proof.
  intros H. replace p with (src + S (p - S src))%nat at 1 by lia. rewrite seq_app, filter_app, filter_ne_id2 by lia. cbn [plus seq filter].
  rewrite Nat.eqb_refl. cbn [negb]. now rewrite filter_ne_id by lia.
Qed.
Lemma np_moveaxis_ones v p M src dst : shp v = repeat 1%nat p ++ M -> (src < p)%nat -> (dst < p)%nat ->
  exists r, np_moveaxis v src dst = Ok r /\ shp r = shp v /\ forall m, length m = length M -> el r (repeat O p ++ m) = el v (repeat O p ++ m).
Proof.
  intros E Hs Hd. unfold np_moveaxis, ndim. rewrite E, app_length, repeat_length.
  replace (Nat.ltb src _) with true by (symmetry; apply Nat.ltb_lt; lia). replace (Nat.ltb dst _) with true by (symmetry; apply Nat.ltb_lt; lia). cbn [andb].
  rewrite seq_app, filter_app, (filter_ne src p Hs), (filter_ne_id src) by lia. cbn [plus].
  set (f := seq 0 src ++ seq (S src) (p - S src)). assert (Lf : length f = (p - 1)%nat) by (unfold f; rewrite app_length, !seq_length; lia).
  rewrite firstn_app, skipn_app. replace (dst - length f)%nat with O by lia. cbn [firstn skipn]. rewrite app_nil_r.
  set (s := firstn dst f ++ src :: skipn dst f).
  assert (Ps : permut p s).
  { unfold permut, s. rewrite <- Permutation_middle, firstn_skipn. unfold f. replace p with (src + S (p - S src))%nat at 1 by lia. rewrite seq_app. cbn [plus seq]. symmetry. apply Permutation_middle. }
  destruct (np_transpose_block v [] (repeat 1%nat p) M s) as (r & Er & Sr & Vr); auto.
  { now rewrite repeat_length. }
  exists r. cbn [length seq map plus app] in Er. rewrite repeat_length in Er. rewrite map_id in Er. split.
  - rewrite <- Er. f_equal. unfold s. rewrite <- app_assoc. reflexivity.
  - cbn [app] in Sr. split.
    + rewrite Sr. f_equal. transitivity (repeat 1%nat (length s)); [|now rewrite (permut_length p s Ps)]. assert (Q : Forall (fun q => q < p)%nat s) by (apply Forall_forall; intros q Hq; now apply (permut_In p s q Ps)).
      clear - Q. generalize dependent s. intros s Q. induction s as [|h s IH]; cbn [map length repeat]; auto. inversion Q as [|? ? Q1 Q2]; subst. rewrite IH by auto. f_equal. clear - Q1. revert h Q1. induction p as [|p IHp]; intros h Q1; [lia|]. destruct h; cbn [repeat nth]; auto. apply IHp. lia.
    + intros m Hm. specialize (Vr [] (repeat O p) m eq_refl). rewrite !repeat_length in Vr. specialize (Vr eq_refl Hm). cbn [app] in Vr. rewrite Vr. f_equal. f_equal.
      unfold unperm. rewrite (permut_length p s Ps). transitivity (map (fun _ => O) (seq 0 p)).
      * apply map_ext_in. intros q Hq. destruct (index_of q s); auto. now apply nth_repeat.
      * clear. generalize O at 2 as z. induction p; intros z; cbn [seq map repeat]; auto. now rewrite IHp.
Qed.
Lemma moveaxis_ones_fold M p src ks : forall v, shp v = repeat 1%nat p ++ M -> (src < p)%nat -> Forall (fun k => k < p)%nat ks ->
  exists r, ofold (fun v k => np_moveaxis v src k) ks v = Ok r /\ shp r = shp v /\ forall m, length m = length M -> el r (repeat O p ++ m) = el v (repeat O p ++ m).
Proof.
  induction ks as [|k ks IH]; intros v E Hs Hk; cbn [ofold]; [exists v; auto|]. inversion Hk; subst.
  destruct (np_moveaxis_ones v p M src k E Hs) as (v1 & E1 & S1 & V1); auto. rewrite E1. cbn [rbind].
  destruct (IH v1) as (r & Er & Sr & Vr); auto; [now rewrite S1|]. exists r. split; [exact Er|]. split; [congruence|]. intros m Hm. rewrite Vr, V1; auto.
Qed.
Lemma ones_repeat l : Forall (fun s => s = 1%nat) l -> l = repeat 1%nat (length l).
Proof. induction 1; cbn; congruence. Qed.
Lemma ones_idx l : Forall (fun s => s = 1%nat) l -> forall i, In i (indices l) -> i = repeat O (length l).
Proof.
  induction 1 as [|s l Hs _ IH]; intros i Hi; [destruct Hi as [<-|[]]; auto|]. destruct i as [|k i]; [now apply indices_length in Hi|]. apply TensorLemmas.in_cons in Hi as [Hk Hi].
  cbn. f_equal; [lia|auto].
Qed.

(** *** transpose *)
Theorem ttranspose_full t : wf t -> transposable t ->
  exists r, ttranspose t = Ok r /\ shp (tv r) = sY t ++ sX t ++ sN t ++ sD t /\ wf r /\ (to_features t -> to_features r) /\ dsame (den r) (dtrans (den t)).
Proof.
  intros W H. pose proof (wf_groups t W) as G. destruct (wf_pos4 t W) as (PX & PY & PN & PD).
  pose proof (wf_x t W) as Mox. pose proof (wf_y t W) as Moy.
  pose proof (den_groups _ _ _ _ _ G) as (Dx & Dy & Dn & Dd).
  set (X := sX t) in *. set (Y := sY t) in *. set (N := sN t) in *. set (D := sD t) in *.
  destruct G as [GS Lx Ly Ln Ld].
  assert (K : exists v, (if Nat.ltb 0 (xd t) && Nat.ltb 0 (yd t) then ofold (fun v k => np_moveaxis v (xd t) k) (seq 0 (xd t)) (tv t) else Ok (tv t)) = Ok v /\
      shp v = Y ++ X ++ N ++ D /\ forall x y r, In x (indices X) -> In y (indices Y) -> length r = length (N ++ D) -> el v (y ++ x ++ r) = el (tv t) (x ++ y ++ r)).
  { destruct H as [H|[H|[[H1 H2]|H]]].
    - rewrite H. cbn [Nat.ltb Nat.leb andb]. exists (tv t). rewrite H in Lx. destruct X; [|discriminate]. cbn [app] in *. repeat split; auto.
      intros x y r L1 L2 L3. apply indices_length in L1. destruct x; [reflexivity|discriminate].
    - rewrite H, andb_false_r. exists (tv t). rewrite H in Ly. destruct Y; [|discriminate]. cbn [app] in *. repeat split; auto.
      intros x y r L1 L2 L3. apply indices_length in L2. destruct y; [reflexivity|discriminate].
    - rewrite H1, H2. cbn [Nat.ltb Nat.leb andb seq ofold]. rewrite H1 in Lx; rewrite H2 in Ly.
      destruct X as [|a [|]]; try discriminate. destruct Y as [|b [|]]; try discriminate. cbn [app] in GS.
      destruct (np_transpose_block (tv t) [] [a; b] (N ++ D) [1%nat; 0%nat]) as (v & E & S & V); auto.
      { cbn. apply perm_swap. }
      exists v. split; [|split; [exact S|]].
      + unfold np_moveaxis, ndim. rewrite GS. cbn [length Nat.ltb Nat.leb andb seq filter Nat.eqb negb firstn app].
        replace (filter _ _) with (seq 2 (length (N ++ D))).
        2:{ assert (Q : forall s n, (2 <= s)%nat -> seq s n = filter (fun k => negb (Nat.eqb k 1)) (seq s n)).
            { intros s n; revert s; induction n as [|n IH]; intros s Hs; cbn [seq filter]; auto.
              destruct (Nat.eqb_spec s 1); [lia|]. cbn [negb]. now rewrite <- IH by lia. }
            apply Q. lia. }
        cbn [skipn]. cbn [length seq map plus app] in E. rewrite E. reflexivity.
      + intros x y r L1 L2 L3. apply indices_length in L1, L2. destruct x as [|x0 [|]]; try discriminate. destruct y as [|y0 [|]]; try discriminate.
        cbn [app]. specialize (V [] [y0; x0] r eq_refl eq_refl L3). exact V.
    - pose proof (ones_repeat _ H) as O1. change (X ++ Y = repeat 1%nat (length (X ++ Y))) in O1. apply Forall_app in H as [HX HY]. change (Forall (fun s => s = 1%nat) X) in HX. change (Forall (fun s => s = 1%nat) Y) in HY.
      assert (SW : Y ++ X = X ++ Y). { rewrite (ones_repeat X HX), (ones_repeat Y HY), <- !repeat_app. f_equal. lia. }
      assert (GS' : shp (tv t) = repeat 1%nat (length (X ++ Y)) ++ N ++ D) by (rewrite GS, <- O1; now rewrite <- app_assoc).
      destruct (Nat.ltb_spec 0 (xd t)) as [Hx|Hx], (Nat.ltb_spec 0 (yd t)) as [Hy|Hy]; cbn [andb].
      2:{ exists (tv t). split; [reflexivity|]. assert (Y0 : Y = []) by (destruct Y; [auto|cbn in *; lia]). rewrite Y0 in *. split; [exact GS|]. intros x y r L1 L2 L3. apply indices_length in L2. destruct y; [reflexivity|discriminate]. }
      2,3: exists (tv t); (split; [reflexivity|]); assert (X0 : X = []) by (destruct X; [auto|cbn in *; lia]); rewrite X0 in *; (split; [exact GS|]); intros x y r L1 L2 L3; apply indices_length in L1; destruct x; [reflexivity|discriminate].
      destruct (moveaxis_ones_fold (N ++ D) (length (X ++ Y)) (xd t) (seq 0 (xd t)) (tv t) GS') as (v & Ev & Sv & Vv).
      { rewrite app_length. lia. } { apply Forall_forall. intros k Hk. apply in_seq in Hk. rewrite app_length. lia. }
      exists v. split; [exact Ev|]. split. { rewrite Sv, GS, !app_assoc, SW. reflexivity. }
      intros x y r L1 L2 L3. rewrite (ones_idx _ HX x L1), (ones_idx _ HY y L2). rewrite (app_assoc (repeat O (length Y))), (app_assoc (repeat O (length X))), <- !repeat_app, (Nat.add_comm (length Y)), <- app_length. now apply Vv. }
  destruct K as (v & E & S & V). unfold ttranspose. rewrite E. cbn [rbind].
  destruct (Tensor_ok v Y X N D (ym t) (xm t) (yd t) (xd t) (dm t)) as (r & Er & Gr & Tr & Mx & My); auto.
  exists r. split; [exact Er|]. split; [exact (g_shp _ _ _ _ _ Gr)|].
  assert (Nr : nn r = nn t) by (rewrite <- (g_n _ _ _ _ _ Gr); auto).
  split. { apply (wf_of r _ _ _ _ Gr); auto; rewrite ?Mx, ?My, ?Ln, ?Ld; auto. }
  split. { intros [F1 F2]. split; rewrite ?Mx, ?My, Nr; auto. }
  destruct (den_groups _ _ _ _ _ Gr) as (Rx & Ry & Rn & Rd). rewrite Mx in Rx; rewrite My in Ry.
  unfold dsame. rewrite Rx, Ry, Rn, Rd. cbn [dtrans xs ys ns ds at_]. rewrite Dx, Dy, Dd, Dn.
  split; [auto|]. split; [auto|]. split; [auto|]. split; [reflexivity|].
  intros x y n d Hx Hy Hn Hd. apply (stored_in _ _ _ _ (proj1 Moy) PY) in Hx. apply (stored_in _ _ _ _ (proj1 Mox) PX) in Hy. apply indices_length in Hn, Hd.
  unfold den. cbn [at_]. rewrite Mx, My, Tr. rewrite V by (auto; rewrite ?app_length; lia). ring.
Qed.
Theorem ttranspose_ok t : wf t -> transposable t ->
  exists r, ttranspose t = Ok r /\ wf r /\ (to_features t -> to_features r) /\ dsame (den r) (dtrans (den t)).
Proof. intros W T. destruct (ttranspose_full t W T) as (r & Q1 & _ & Q2). exists r. auto. Qed.
Lemma ttranspose_shape t r : wf t -> transposable t -> ttranspose t = Ok r -> shp (tv r) = sY t ++ sX t ++ sN t ++ sD t.
Proof. intros W T E. destruct (ttranspose_full t W T) as (r' & Q1 & Q2 & _). congruence. Qed.

(** *** flip *)
Lemma flip1_comm sh i a b : flip1 sh (flip1 sh i a) b = flip1 sh (flip1 sh i b) a.
Proof.
  unfold flip1. destruct (Nat.eq_dec a b) as [->|N]; auto.
  rewrite !nth_upd_neq by auto. apply upd_comm. auto.
Qed.
Lemma flip1_length sh i k : length (flip1 sh i k) = length i.
Proof. apply upd_nth_length. Qed.
Lemma flip_idx_comm sh w : forall i a, flip_idx sh w (flip1 sh i a) = flip1 sh (flip_idx sh w i) a.
Proof. unfold flip_idx. induction w as [|k w IH]; intros i a; cbn [fold_left]; auto. rewrite flip1_comm. apply IH. Qed.
Lemma flip_ofold w : forall p v A N C, shp v = A ++ N ++ C -> p = length A -> Forall (fun k => k < length N)%nat w ->
  exists r, ofold (fun v k => np_flip v (p + k)) w v = Ok r /\ shp r = shp v /\
    forall a n c, length a = length A -> length n = length N -> el r (a ++ n ++ c) = el v (a ++ flip_idx N w n ++ c).
Proof.
  induction w as [|k w IH]; intros p v A N C E -> T.
  - exists v. cbn. auto.
  - inversion T; subst. cbn [ofold]. unfold np_flip at 1, ndim. rewrite E, !app_length.
    replace (Nat.ltb _ _) with true by (symmetry; apply Nat.ltb_lt; lia). cbn [rbind].
    set (v1 := mkA _ _).
    destruct (IH (length A) v1 A N C) as (r & Er & Sr & Vr); auto.
    exists r. split; [exact Er|]. split; [exact Sr|]. intros a n c La Ln.
    rewrite Vr by auto. subst v1; cbn [el]. f_equal. unfold flip1 at 1.
    assert (LF : length (flip_idx N w n) = length N).
    { rewrite <- Ln. clear. unfold flip_idx. revert n; induction w as [|k w IH]; intros n; cbn [fold_left]; auto. now rewrite IH, flip1_length. }
    rewrite <- La at 1. rewrite upd_app2. f_equal. rewrite upd_app1 by lia. f_equal.
    cbn [flip_idx fold_left]. fold (flip_idx N w (flip1 N n k)). rewrite flip_idx_comm. unfold flip1 at 1. f_equal.
    rewrite <- La at 2. rewrite !(app_nth2 a), !(app_nth2 A) by lia. rewrite !app_nth1 by lia. f_equal; [f_equal|]; f_equal; lia.
Qed.
Lemma not_mapped_existsb k m : existsb (oeqb (Some k)) m = true <-> In k (targets m).
Proof.
  induction m as [|[f|] m IH]; cbn [existsb oeqb targets In]; [split; [discriminate|tauto]| |now rewrite IH].
  rewrite orb_true_iff, IH, Nat.eqb_eq. split; intros [H|H]; auto.
Qed.
Lemma targets_app a b : targets (a ++ b) = targets a ++ targets b.
Proof. induction a as [|[f|] a IH]; cbn [app targets]; auto. now rewrite IH. Qed.
Lemma deltas_flip m x n sh w : (forall f, In f (targets m) -> ~ In f w) -> deltas m x (flip_idx sh w n) = deltas m x n.
Proof.
  unfold flip_idx. revert n; induction w as [|k w IH]; intros n H; cbn [fold_left]; auto.
  rewrite IH by (intros f Hf Hw; apply (H f Hf); now right). unfold flip1. apply deltas_upd. intros Hk. apply (H k Hk). now left.
Qed.
Theorem tflip_ok t w : wf t -> to_features t -> Forall (fun k => k < nn t)%nat w ->
  (forall k, In k w -> ~ In k (targets (xm t)) /\ ~ In k (targets (ym t))) ->
  exists r, tflip t w false = Ok r /\ wf r /\ to_features r /\ dsame (den r) (dflip (den t) w).
Proof.
  intros W [Fx Fy] T NM. destruct w as [|w0 w'].
  - exists t. cbn [tflip]. split; [auto|]. split; [auto|]. split; [split; auto|]. unfold dsame. cbn [dflip flip_idx fold_left xs ys ns ds at_]. auto.
  - remember (w0 :: w') as w eqn:Ew. pose proof (wf_groups t W) as G. destruct (wf_pos4 t W) as (PX & PY & PN & PD).
    pose proof (wf_x t W) as Mox. pose proof (wf_y t W) as Moy.
    pose proof (den_groups _ _ _ _ _ G) as (Dx & Dy & Dn & Dd).
    set (X := sX t) in *. set (Y := sY t) in *. set (N := sN t) in *. set (D := sD t) in *.
    destruct G as [GS Lx Ly Ln Ld]. rewrite <- Ln in T.
    destruct (flip_ofold w (xd t + yd t) (tv t) (X ++ Y) N D) as (v & E & S & V); auto.
    { now rewrite <- app_assoc. } { rewrite app_length; lia. }
    assert (EE : existsb (fun k => existsb (oeqb (Some k)) (xm t ++ ym t)) w = false).
    { apply not_true_is_false. rewrite existsb_exists. intros (k & Hk & H). apply not_mapped_existsb in H. rewrite targets_app, in_app_iff in H.
      destruct (NM k Hk). tauto. }
    unfold tflip. rewrite Ew, <- Ew. cbn [negb andb]. rewrite EE, E. cbn [rbind].
    destruct (Tensor_ok v X Y N D (xm t) (ym t) (xd t) (yd t) (dm t)) as (r & Er & Gr & Tr & Mx & My); auto.
    { now rewrite S. }
    exists r. split; [exact Er|].
    assert (Nr : nn r = nn t) by (rewrite <- (g_n _ _ _ _ _ Gr); auto).
    split. { apply (wf_of r _ _ _ _ Gr); auto; rewrite ?Mx, ?My, ?Ln, ?Ld; auto. }
    split. { split; rewrite ?Mx, ?My, Nr; auto. }
    destruct (den_groups _ _ _ _ _ Gr) as (Rx & Ry & Rn & Rd). rewrite Mx in Rx; rewrite My in Ry.
    unfold dsame. rewrite Rx, Ry, Rn, Rd. cbn [dflip xs ys ns ds at_]. rewrite Dx, Dy, Dd, Dn.
    split; [auto|]. split; [auto|]. split; [auto|]. split; [reflexivity|].
    intros x y n d Hx Hy Hn Hd. apply indices_length in Hx, Hy, Hn, Hd. rewrite msizes_length in Hx, Hy.
    assert (LF : length (flip_idx N w n) = length N).
    { rewrite <- Hn. clear. unfold flip_idx. revert n; induction w as [|k w IH]; intros n; cbn [fold_left]; auto. now rewrite IH, flip1_length. }
    rewrite <- Ln in Fx, Fy.
    unfold den. cbn [at_]. rewrite Mx, My, Tr. fold N. rewrite app_assoc, V by (rewrite ?app_length, ?stored_length; lia). rewrite <- app_assoc.
    rewrite !deltas_app by (rewrite ?LF, ?Hn; auto). rewrite !deltas_flip; auto.
    + intros f Hf Hw. now destruct (NM f Hw).
    + intros f Hf Hw. now destruct (NM f Hw).
Qed.
Theorem tflip_mapped t w k : In k w -> In k (targets (xm t)) \/ In k (targets (ym t)) -> tflip t w false = Raise NotImplementedError.
Proof.
  intros Hk H. unfold tflip. destruct w as [|w0 w']; [destruct Hk|]. remember (w0 :: w') as w. cbn [negb andb].
  replace (existsb _ w) with true; auto. symmetry. apply existsb_exists. exists k. split; auto. apply not_mapped_existsb.
  rewrite targets_app, in_app_iff. auto.
Qed.
