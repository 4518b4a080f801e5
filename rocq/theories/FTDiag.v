(** grad_tensor and hess_tensor build diagonal tensors. *)
From Verif Require Import Prelude DenseModel AnalyticSpec DenseProofs NDArray NDProofs TensorModel TensorSpec TensorSpecOps TensorLemmas TensorBasic TensorSum TensorSumMain TensorBin TensorArith TensorShape TensorExpand TensorGeneric TensorGSum TensorDotCore TensorDot TensorUfunc TensorUfuncP FuncModel FuncSpec FTModel FTRep FTRep2 FTRep3 FTVal.
From Verif Require FuncPrim.
From Coq Require Import Reals Lra.
Import List ListNotations.
Open Scope R_scope.
Section ex.
Context {ex : exdims}.

Lemma ishape_nw b l sh : ishape (repeat Nw b ++ l) sh = repeat 1%nat b ++ ishape l sh.
Proof. induction b; cbn; auto. now rewrite IHb. Qed.
Lemma ishape_sl sh : ishape (repeat Sl (length sh)) sh = sh.
Proof. induction sh; cbn; congruence. Qed.
Lemma iidx_nw l a i : iidx (repeat Nw (length a) ++ l) (a ++ i) = iidx l i.
Proof. induction a; cbn; auto. Qed.
Lemma iidx_sl i : iidx (repeat Sl (length i)) i = i.
Proof. induction i; cbn; congruence. Qed.
Lemma index_nw b a : exists r, np_index (repeat Nw b ++ [Dots]) a = Ok r /\ shp r = repeat 1%nat b ++ shp a /\
  forall z i, length z = b -> In i (indices (shp a)) -> el r (z ++ i) = el a i.
Proof.
  change [Dots] with (Dots :: repeat Nw 0). rewrite np_index_dots. eexists. split; [reflexivity|]. cbn [repeat shp el]. rewrite app_nil_r. split.
  - rewrite ishape_nw. unfold ndim. now rewrite ishape_sl.
  - intros z i <- Hi. rewrite iidx_nw. f_equal. unfold ndim. rewrite <- (indices_length _ _ Hi). apply iidx_sl.
Qed.
Lemma stored_some l x : length x = length l -> stored (map Some l) x = repeat 0%nat (length l).
Proof. revert x; induction l as [|f l IH]; intros [|k x] H; cbn in *; try discriminate; auto. f_equal. apply IH. lia. Qed.
Lemma deltas_seq : forall k a x nd, length x = k -> (a + k <= length nd)%nat ->
  deltas (map Some (seq a k)) x nd = if eqb_idx x (firstn k (skipn a nd)) then 1 else 0.
Proof.
  induction k as [|k IH]; intros a [|i x] nd L1 L2; cbn [length] in *; try discriminate; [reflexivity|]. cbn [seq map deltas]. rewrite IH by lia.
  assert (E : skipn a nd = nth a nd 0%nat :: skipn (S a) nd).
  { clear - L2. revert a L2; induction nd as [|c nd IHn]; intros [|a] L2; cbn in *; try lia; auto. apply IHn. lia. }
  rewrite E. cbn [firstn]. unfold NDArray.delta. destruct (Nat.eqb_spec i (nth a nd 0%nat)) as [->|NE].
  - destruct (FuncPrim.eqb_idx_spec x (firstn k (skipn (S a) nd))) as [->|N2].
    + destruct (FuncPrim.eqb_idx_spec (nth a nd 0%nat :: firstn k (skipn (S a) nd)) (nth a nd 0%nat :: firstn k (skipn (S a) nd))); [ring|congruence].
    + destruct (FuncPrim.eqb_idx_spec (nth a nd 0%nat :: x) (nth a nd 0%nat :: firstn k (skipn (S a) nd))); [congruence|ring].
  - destruct (FuncPrim.eqb_idx_spec (i :: x) (nth a nd 0%nat :: firstn k (skipn (S a) nd))); [congruence|ring].
Qed.
Lemma single_idm k : forall a, single_at (map Some (seq a k)) (repeat 1%nat k).
Proof. induction k; intros a; cbn; auto. Qed.
Lemma mapok_idm k r : (k <= r)%nat -> map_ok (idm k) (repeat 1%nat k) r.
Proof. intros H. split; [apply single_idm|]. rewrite targets_idm. split; [apply seq_NoDup|]. apply Forall_forall. intros f Hf. apply in_seq in Hf. lia. Qed.
Lemma pos_ones k : posl (repeat 1%nat k).
Proof. induction k; cbn; constructor; auto. Qed.
Lemma le1_refl a : le1 a a.
Proof. induction a; constructor; auto. Qed.

(** the diagonal first derivative *)
Lemma diag_grad_xfits K E a h : posl K -> posl E -> shp a = K ++ E -> (forall i, In i (indices (K ++ E)) -> el a i = h i) ->
  exists v t, np_index (repeat Nw (length K) ++ [Dots]) a = Ok v /\ Tensor v (length K) 0 (length E) (idm (length K)) [] = Ok t /\
    xfits (SH K [] K E) t /\ xm t = idm (length K) /\ ym t = [] /\ shp (tv t) = repeat 1%nat (length K) ++ K ++ E /\
    forall x n d, In x (indices K) -> In n (indices K) -> In d (indices E) -> get (den t) x [] n d = if eqb_idx x n then h (n ++ d) else 0.
Proof.
  intros PK PE Sa Va. destruct (index_nw (length K) a) as (v & Ev & Sv & Vv). rewrite Sa in Sv, Vv.
  destruct (Tensor_ok v (repeat 1%nat (length K)) [] K E (idm (length K)) [] (length K) 0 (length E)) as (t & Et & G & Tv & Mx & My); auto.
  { now rewrite repeat_length. }
  exists v, t. split; [exact Ev|]. split; [exact Et|].
  assert (W : wf t).
  { apply (wf_of t _ _ _ _ G); auto; [apply pos_ones|constructor|rewrite Mx; apply mapok_idm; lia|rewrite My; apply map_ok_nil]. }
  destruct (groups_sX _ _ _ _ _ G) as (EX & EY & EN & ED). destruct (den_groups _ _ _ _ _ G) as (DX & DY & DN & DD).
  assert (HX : xs (den t) = K). { rewrite DX, Mx. unfold idm. rewrite msizes_idm; [|apply repeat_length|rewrite app_length; lia]. cbn [skipn]. now rewrite firstn_app, Nat.sub_diag, firstn_all, app_nil_r. }
  assert (HY : ys (den t) = []). { rewrite DY, My. reflexivity. }
  split; [|split; [exact Mx|split; [exact My|split; [rewrite (g_shp _ _ _ _ _ G); reflexivity|]]]].
  - constructor; cbn [SX SY SN SD]; auto.
    + unfold to_features. rewrite Mx, My, targets_idm, <- (g_n _ _ _ _ _ G). split; [|constructor]. apply Forall_forall. intros f Hf. apply in_seq in Hf. lia.
    + unfold tmapped. rewrite Mx, My, targets_idm, <- (g_x _ _ _ _ _ G), <- (g_y _ _ _ _ _ G), seq_length, repeat_length. auto.
    + rewrite EN. apply le1_refl. + rewrite ED. apply DR_same. + intros f _. now rewrite EN.
  - intros x n d Hx Hn Hd. rewrite get_den by auto. rewrite Mx, My, HX, HY, EN, ED, Tv, deltas_nil, (clamp_in K x Hx), (clamp_in K n Hn), (clamp_in E d Hd). cbn [clamp stored app]. unfold idm.
    rewrite stored_some by (rewrite seq_length; now apply indices_length). rewrite seq_length, Vv by (apply repeat_length || now apply in_indices_app2).
    rewrite deltas_seq by (rewrite ?app_length, ?(indices_length _ _ Hx), ?(indices_length _ _ Hn), ?(indices_length _ _ Hd); lia). cbn [skipn].
    rewrite firstn_app, (indices_length _ _ Hn), Nat.sub_diag, <- (indices_length _ _ Hn), firstn_all, app_nil_r. rewrite Va by (now apply in_indices_app2).
    destruct (eqb_idx x n); ring.
Qed.
(** the diagonal second derivative *)
Lemma diag_hess_xfits K E a h : posl K -> posl E -> shp a = K ++ E -> (forall i, In i (indices (K ++ E)) -> el a i = h i) ->
  exists v t, np_index (repeat Nw (length K) ++ repeat Nw (length K) ++ [Dots]) a = Ok v /\ Tensor v (length K) (length K) (length E) (idm (length K)) (idm (length K)) = Ok t /\
    xfits (SH K K K E) t /\ xm t = idm (length K) /\ ym t = idm (length K) /\ shp (tv t) = repeat 1%nat (length K) ++ repeat 1%nat (length K) ++ K ++ E /\
    forall x y n d, In x (indices K) -> In y (indices K) -> In n (indices K) -> In d (indices E) -> get (den t) x y n d = if eqb_idx x n then if eqb_idx y n then h (n ++ d) else 0 else 0.
Proof.
  intros PK PE Sa Va. rewrite app_assoc, <- repeat_app. destruct (index_nw (length K + length K) a) as (v & Ev & Sv & Vv). rewrite Sa in Sv, Vv. rewrite repeat_app, <- app_assoc in Sv.
  destruct (Tensor_ok v (repeat 1%nat (length K)) (repeat 1%nat (length K)) K E (idm (length K)) (idm (length K)) (length K) (length K) (length E)) as (t & Et & G & Tv & Mx & My); auto.
  { now rewrite repeat_length. } { now rewrite repeat_length. }
  exists v, t. split; [exact Ev|]. split; [exact Et|].
  assert (W : wf t).
  { apply (wf_of t _ _ _ _ G); auto; try apply pos_ones; rewrite ?Mx, ?My; apply mapok_idm; lia. }
  destruct (groups_sX _ _ _ _ _ G) as (EX & EY & EN & ED). destruct (den_groups _ _ _ _ _ G) as (DX & DY & DN & DD).
  assert (HX : xs (den t) = K). { rewrite DX, Mx. unfold idm. rewrite msizes_idm; [|apply repeat_length|rewrite app_length; lia]. cbn [skipn]. now rewrite firstn_app, Nat.sub_diag, firstn_all, app_nil_r. }
  assert (HY : ys (den t) = K). { rewrite DY, My. unfold idm. rewrite msizes_idm; [|apply repeat_length|rewrite app_length; lia]. cbn [skipn]. now rewrite firstn_app, Nat.sub_diag, firstn_all, app_nil_r. }
  split; [|split; [exact Mx|split; [exact My|split; [rewrite (g_shp _ _ _ _ _ G); reflexivity|]]]].
  - constructor; cbn [SX SY SN SD]; auto.
    + unfold to_features. rewrite Mx, My, targets_idm, <- (g_n _ _ _ _ _ G). split; apply Forall_forall; intros f Hf; apply in_seq in Hf; lia.
    + unfold tmapped. rewrite Mx, My, targets_idm, <- (g_x _ _ _ _ _ G), <- (g_y _ _ _ _ _ G), seq_length, repeat_length. auto.
    + rewrite EN. apply le1_refl. + rewrite ED. apply DR_same. + intros f _. now rewrite EN.
  - intros x y n d Hx Hy Hn Hd. rewrite get_den by auto. rewrite Mx, My, HX, HY, EN, ED, Tv, (clamp_in K x Hx), (clamp_in K y Hy), (clamp_in K n Hn), (clamp_in E d Hd). unfold idm.
    rewrite !stored_some by (rewrite seq_length; now apply indices_length). rewrite seq_length, app_assoc, <- repeat_app, Vv by (apply repeat_length || now apply in_indices_app2).
    rewrite !deltas_seq by (rewrite ?app_length, ?(indices_length _ _ Hx), ?(indices_length _ _ Hy), ?(indices_length _ _ Hn), ?(indices_length _ _ Hd); lia). cbn [skipn].
    rewrite firstn_app, (indices_length _ _ Hn), Nat.sub_diag, <- (indices_length _ _ Hn), firstn_all, app_nil_r. rewrite Va by (now apply in_indices_app2).
    destruct (eqb_idx x n), (eqb_idx y n); ring.
Qed.
End ex.
