(** Proofs about NumPy functions on Tensors, powers and the dispatcher [dot]. *)
From Verif Require Import Prelude DenseModel AnalyticSpec DenseProofs NDArray NDProofs TensorModel TensorSpec TensorSpecOps TensorLemmas TensorBasic TensorSum TensorSumMain TensorShape TensorBin TensorArith TensorMore TensorDotCore TensorDot TensorUfunc.
From Coq Require Import Reals Lra.
Import List ListNotations.
Open Scope R_scope.

Lemma tpow_ok t a : wf t -> (1 <= a)%nat \/ (unmapped (xm t) /\ unmapped (ym t)) ->
  exists r, tpow t a = Ok r /\ wf r /\ dsame (den r) (dmap (fun v => v ^ a) (den t)).
Proof.
  intros W [H|[Ux Uy]].
  - apply entrywise; auto. intros v e1 e2 [-> | ->] [-> | ->]; rewrite ?Rmult_0_r, ?Rmult_1_r, ?Rmult_0_l; auto; rewrite pow_i; auto; lra.
  - destruct (retensor t (np_map (fun v => v ^ a) (tv t)) W eq_refl) as (r & Er & Wr & _ & _ & _ & _ & Ex & Ey & Ev & S1 & S2 & S3 & S4).
    exists r. split; [exact Er|]. split; [exact Wr|]. unfold dsame. repeat split; auto. intros x y n d _ _ _ _.
    cbn [den dmap at_]. rewrite Ev, Ex, Ey. cbn [np_map el].
    assert (U1 : forall m, unmapped m -> forall x nd, deltas m x nd = 1). { clear. unfold unmapped. induction m as [|[f|] m IH]; intros H x nd; cbn in *; [reflexivity|discriminate|]. destruct x; auto. }
    rewrite !U1 by auto. now rewrite !Rmult_1_r.
Qed.

(** arrays as Tensors without x, y and dim axes *)
Definition arrT (a : nda) : tensor := mkT a 0 0 (ndim a) 0 [] [].
Lemma arrT_eq a : Tensor a 0 0 0 [] [] = Ok (arrT a).
Proof. unfold Tensor, arrT. cbn. now rewrite !Nat.sub_0_r. Qed.
Lemma arrT_wf a : posl (shp a) -> wf (arrT a).
Proof.
  intros P. constructor; cbn [arrT tv xd yd nn dm xm ym].
  - unfold ndim. lia. - exact P. - split; cbn; auto. split; constructor. - split; cbn; auto. split; constructor.
Qed.
Lemma arrT_tf a : to_features (arrT a). Proof. split; constructor. Qed.
Lemma arrT_den a : dsame (den (arrT a)) (vden (PArr a)).
Proof.
  unfold dsame, den, sX, sY, sN, sD. cbn [arrT tv xd yd nn dm xm ym vden xs ys ns ds at_ firstn skipn plus]. unfold ndim. rewrite firstn_all, skipn_all. cbn [msizes].
  repeat (split; [reflexivity|]). intros x y n d Hx Hy Hn Hd. apply indices_length in Hx, Hy, Hd. destruct x, y, d; try discriminate. cbn [stored deltas app]. rewrite app_nil_r. lra.
Qed.
Lemma tbin_arr_T t a op : shp a <> [] -> tbin t (PArr a) op = tbin t (PT (arrT a)) op.
Proof. intros H. cbn [tbin tbin1]. unfold tbin_arr, tbin_t. cbn [arrT tv]. destruct (shp a) eqn:E; [congruence|]. now rewrite arrT_eq. Qed.
Lemma dbin_swap f a b : dsame (dbin f a b) (dbin (fun u v => f v u) b a).
Proof. unfold dsame. cbn [dbin xs ys ns ds at_]. rewrite (bmax_sym (xs a)), (bmax_sym (ys a)), (bmax_sym (ns a)), (bmax_sym (ds a)). repeat (split; [reflexivity|]). auto. Qed.

(** unary functions *)
Lemma unary_ok n f t : wf t -> xd t = O -> yd t = O ->
  exists r, np_call (S n) (UPoint f) [PT t] = Some (Ok (PT r)) /\ wf r /\ dm r = dm t /\ dsame (den r) (dmap f (den t)).
Proof.
  intros W Hx Hy. cbn [np_call overrider]. rewrite Hx, Hy. cbn [Nat.ltb Nat.leb orb].
  assert (Mx : xm t = [] /\ ym t = []).
  { destruct (wf_x t W) as (Sx & _). destruct (wf_y t W) as (Sy & _). unfold sX in Sx. unfold sY in Sy. rewrite Hx in Sx. rewrite Hy in Sy. cbn [firstn] in Sx, Sy.
    destruct (xm t) as [|[?|] ?], (ym t) as [|[?|] ?]; cbn in Sx, Sy; tauto. }
  destruct Mx as [Mx My].
  destruct (retensor t (np_map f (tv t)) W eq_refl) as (r & Er & Wr & E1 & E2 & E3 & E4 & Ex & Ey & Ev & S1 & S2 & S3 & S4).
  rewrite Hx, Hy, Mx, My in Er. exists r. rewrite Er. split; [reflexivity|]. split; [exact Wr|]. split; [auto|].
  unfold dsame. repeat split; auto. intros x y m d _ _ _ _. cbn [den dmap at_]. rewrite Ev, Ex, Ey, Mx, My. cbn [np_map el deltas]. rewrite !Rmult_1_r. reflexivity.
Qed.
Lemma unary_raises n u t rest : (exists f, u = UPoint f) \/ (exists f, u = UExt f) -> (0 < xd t)%nat \/ (0 < yd t)%nat ->
  np_call (S n) u (PT t :: rest) = Some (Raise InvalidOperation).
Proof.
  intros U H. assert (E : Nat.ltb 0 (xd t) || Nat.ltb 0 (yd t) = true). { apply orb_true_iff. destruct H as [H|H]; [left|right]; now apply Nat.ltb_lt. }
  destruct U as [[f ->]|[f ->]]; cbn [np_call overrider]; now rewrite E.
Qed.
(** maximum, minimum of a tensor and a number *)
Lemma extremum_num n f t c : wf t -> xd t = O -> yd t = O ->
  exists r, np_call (S (S n)) (UExt f) [PT t; PNum c] = Some (Ok (PT r)) /\ wf r /\ dm r = dm t /\ dsame (den r) (dmap (fun v => f v c) (den t)).
Proof.
  intros W Hx Hy. destruct (unary_ok O (fun v => f v c) t W Hx Hy) as (r & Er & Wr & Dr & Sr).
  cbn [np_call overrider] in *. rewrite Hx, Hy in *. cbn [Nat.ltb Nat.leb orb] in *. cbn [ubin as_array].
  unfold np_bin, ndim. cbn [np_scalar shp length]. rewrite Nat.max_0_r. unfold pad. rewrite Nat.sub_diag. cbn [repeat app]. rewrite Nat.sub_0_r, app_nil_r.
  assert (B : forall l, bshape l (repeat 1%nat (length l)) = Some l).
  { clear. induction l as [|s l IH]; cbn [length repeat bshape]; auto. rewrite IH. unfold bc1. destruct (Nat.eqb_spec s 1) as [->|]; reflexivity. }
  rewrite B. cbn [rmap rbind as_array].
  set (v := mkA (shp (tv t)) _).
  destruct (retensor t v W eq_refl) as (r' & Er' & Wr' & E1 & E2 & E3 & E4 & Ex & Ey & Ev & S1 & S2 & S3 & S4).
  assert (Mx : xm t = [] /\ ym t = []).
  { destruct (wf_x t W) as (Sx & _). destruct (wf_y t W) as (Sy & _). unfold sX in Sx. unfold sY in Sy. rewrite Hx in Sx. rewrite Hy in Sy. cbn [firstn] in Sx, Sy.
    destruct (xm t) as [|[?|] ?], (ym t) as [|[?|] ?]; cbn in Sx, Sy; tauto. }
  destruct Mx as [Mx My]. rewrite Hx, Hy, Mx, My in Er'. exists r'. rewrite Er'. split; [reflexivity|]. split; [exact Wr'|]. split; [auto|].
  unfold dsame. repeat split; auto. intros x y m d Qx Qy Qm Qd. cbn [den dmap at_]. rewrite Ev, Ex, Ey, Mx, My. cbn [deltas]. rewrite !Rmult_1_r. unfold v. cbn [el np_scalar].
  f_equal. f_equal. unfold align. cbn [stored].
  pose proof (wf_groups r' Wr') as G. destruct (den_groups _ _ _ _ _ G) as (Dx & Dy & Dn & Dd). rewrite Dx in Qx. rewrite Dy in Qy. rewrite Dn in Qm. rewrite Dd in Qd.
  rewrite Ex, Mx in Qx. rewrite Ey, My in Qy. cbn [msizes] in Qx, Qy.
  assert (I : In (x ++ y ++ m ++ d) (indices (shp (tv t)))).
  { replace (shp (tv t)) with (shp (tv r')) by (rewrite Ev; reflexivity). rewrite (g_shp _ _ _ _ _ G). repeat (apply in_indices_app2; [assumption|]). assumption. }
  rewrite (indices_length _ _ I), Nat.sub_diag. cbn [skipn]. now apply clamp_in.
Qed.
(** with the tensor on the right, or two tensors, the call never returns *)
Lemma extremum_loops f t : xd t = O -> yd t = O -> forall n a, as_array a <> None \/ (exists s, a = PT s /\ xd s = O /\ yd s = O) ->
  np_call n (UExt f) [a; PT t] = None.
Proof.
  intros Hx Hy. induction n as [|n IH]; intros a H; [reflexivity|]. cbn [np_call].
  assert (E : exists s, overrider [a; PT t] = Some (PT s) /\ xd s = O /\ yd s = O).
  { destruct H as [H|(s & -> & Q1 & Q2)]; [|exists s; auto]. exists t. destruct a; cbn in H; try congruence; auto. }
  destruct E as (s & -> & Q1 & Q2). rewrite Q1, Q2. cbn [Nat.ltb Nat.leb orb]. rewrite IH; [reflexivity|]. left. discriminate.
Qed.

(** arithmetic with an array or a number on the left *)
Lemma left_operand n u op a t : uop u = Some op -> as_array a <> None -> np_call (S n) u [a; PT t] = Some (tbin t a op).
Proof. intros U H. cbn [np_call]. destruct a; cbn in H; try congruence; cbn [overrider]; destruct u; cbn in U; try discriminate; cbn [uop]; injection U as <-; reflexivity. Qed.
Lemma tensor_first n u op t rest : uop u = Some op -> np_call (S n) u (PT t :: rest) = Some (tbin t (PT t) op).
Proof. intros U. cbn [np_call overrider]. destruct u; cbn in U; try discriminate; cbn [uop]; injection U as <-; reflexivity. Qed.
Lemma uop_fun u op f : uop u = Some op -> ubin u = Some f -> forall x y, f x y = op_fun op y x.
Proof. destruct u; cbn; intros E1 E2; try discriminate; injection E1 as <-; injection E2 as <-; intros; cbn; ring || reflexivity. Qed.
Lemma dbin_ext f g a b : (forall x y, f x y = g x y) -> dsame (dbin f a b) (dbin g a b).
Proof. intros H. unfold dsame. cbn [dbin xs ys ns ds at_]. repeat (split; [reflexivity|]). intros. apply H. Qed.
Lemma left_dsame u op f a t v : uop u = Some op -> ubin u = Some f -> dcompat (den t) (den (arrT a)) -> dpos (den t) -> dpos (den (arrT a)) ->
  dsame v (dbin (op_fun op) (den t) (den (arrT a))) -> dsame v (dbin f (vden (PArr a)) (den t)).
Proof.
  intros U F C P1 P2 D. eapply dsame_trans; [exact D|].
  eapply dsame_trans; [apply dsame_dbin; [exact C|exact P1|exact P2|apply dsame_refl|apply arrT_den|intros; reflexivity]|].
  eapply dsame_trans; [apply dbin_swap|]. apply dbin_ext. intros x y. symmetry. now apply (uop_fun u op f).
Qed.

(** ** dot *)
Definition swapxy (t : tensor) : tensor := mkT (tv t) (yd t) (xd t) (nn t) (dm t) (ym t) (xm t).
Lemma ttranspose_absent t : wf t -> xd t = O \/ yd t = O -> ttranspose t = Ok (swapxy t).
Proof.
  intros W H. unfold ttranspose. replace (Nat.ltb 0 (xd t) && Nat.ltb 0 (yd t)) with false. 2:{ destruct H as [-> | ->]; cbn; auto. symmetry. apply andb_false_r. }
  cbn [rbind]. unfold Tensor, ndim. rewrite (wf_len t W). destruct (Nat.ltb_spec (xd t + yd t + nn t + dm t) (yd t + xd t + dm t)); [lia|].
  unfold swapxy. f_equal. f_equal. lia.
Qed.
Lemma dims_assert s o : wf s -> wf o -> bok (sD o) (sD s) -> Nat.eqb (dm s) 0 || Nat.eqb (dm o) 0 || Nat.eqb (dm s) (dm o) = true.
Proof.
  intros Ws Wo B. rewrite <- (g_d _ _ _ _ _ (wf_groups s Ws)), <- (g_d _ _ _ _ _ (wf_groups o Wo)). destruct B as [-> | [-> | B]].
  - cbn. now rewrite orb_true_r. - reflexivity. - rewrite (Forall2_length' _ _ _ B), Nat.eqb_refl. apply orb_true_r.
Qed.
Theorem tdot_is_left s o : wf s -> wf o -> to_features s -> to_features o -> contractible s o -> yd o = 0%nat ->
  (xm s = [] \/ chained (xm s) (xm o)) -> is_zero0 (tv s) = false ->
  exists r, tdot s (PT o) = Ok (PT r) /\ wf r /\ to_features r /\ dsame (den r) (ddot_left (den s) (den o)).
Proof.
  intros Ws Wo Fs Fo C Y M Z. destruct (tdot_left_ok s o Ws Wo Fs Fo C Y M) as (r & Er & Q). exists r. split; [|exact Q].
  unfold tdot. rewrite Z. cbn [pdm pxd pyd pnn]. rewrite dims_assert by (auto; apply C). cbn [py_assert rbind]. rewrite Y. cbn [Nat.ltb Nat.leb]. rewrite andb_false_r.
  rewrite (ct_n s o C), Nat.eqb_refl. cbn [tdot_left_any]. rewrite Er. cbn [rbind]. destruct (xd o); reflexivity.
Qed.
Theorem tdot_is_right s o : wf s -> wf o -> to_features s -> to_features o -> contractible s o -> yd s = 0%nat ->
  is_zero0 (tv o) = false -> is_zero0 (tv s) = false -> (0 < xd s)%nat -> (0 < xd o)%nat -> (0 < yd o)%nat ->
  chained (xm s) (xm o) -> chained (xm s) (ym o) -> (xm s = [] -> xm o = [] /\ ym o = []) ->
  exists r, tdot s (PT o) = Ok (PT r) /\ wf r /\ to_features r /\ dsame (den r) (ddot_right (den s) (den o)).
Proof.
  intros Ws Wo Fs Fo C Y Z Zs X Xo Yo M1 M2 M3. destruct (tdot_right_ok s o Ws Wo Fs Fo C Y Z M1 M2 M3) as (r & Er & Q). exists r. split; [|exact Q].
  unfold tdot. rewrite Zs. cbn [pdm pxd pyd pnn]. rewrite dims_assert by (auto; apply C). cbn [py_assert rbind].
  apply Nat.ltb_lt in X, Xo, Yo. rewrite X, Xo, Yo. cbn [andb tdot_right_any]. exact Er.
Qed.
Lemma swapxy_wf t : wf t -> xd t = O \/ yd t = O -> wf (swapxy t) /\ (to_features t -> to_features (swapxy t)) /\ dsame (den (swapxy t)) (dtrans (den t)).
Proof.
  intros W H. destruct (ttranspose_ok t W) as (r & Er & Q). { unfold transposable. tauto. }
  rewrite ttranspose_absent in Er by auto. injection Er as <-. exact Q.
Qed.
Theorem tdot_transposed s o : wf s -> wf o -> to_features s -> to_features o -> xd s = 0%nat -> xd o = 0%nat -> (0 < yd o)%nat ->
  contractible (swapxy s) (swapxy o) -> (ym s = [] \/ chained (ym s) (ym o)) -> is_zero0 (tv s) = false ->
  exists r, tdot s (PT o) = Ok (PT r) /\ wf r /\ to_features r /\ dsame (den r) (dtrans (ddot_left (den (swapxy s)) (den (swapxy o)))).
Proof.
  intros Ws Wo Fs Fo Xs Xo Yo C M Z. destruct (swapxy_wf s Ws (or_introl Xs)) as (Ws' & Fs' & Ds). destruct (swapxy_wf o Wo (or_introl Xo)) as (Wo' & Fo' & Do).
  destruct (tdot_left_ok (swapxy s) (swapxy o) Ws' Wo' (Fs' Fs) (Fo' Fo) C Xo M) as (r & Er & Wr & Fr & Dr).
  assert (Yr : yd r = O).
  { destruct Dr as (_ & E & _). cbn [ddot_left ys] in E. destruct Ds as (_ & E2 & _). cbn [dtrans ys] in E2. pose proof (wf_groups r Wr) as G. destruct (den_groups _ _ _ _ _ G) as (_ & D2 & _).
    rewrite <- (g_y _ _ _ _ _ G), <- (msizes_length (ym r) (sY r) (sN r ++ sD r)), <- D2, E, E2. pose proof (wf_groups s Ws) as G'. destruct (den_groups _ _ _ _ _ G') as (D1 & _).
    rewrite D1, msizes_length, (g_x _ _ _ _ _ G'). exact Xs. }
  destruct (swapxy_wf r Wr (or_intror Yr)) as (Wr' & Fr' & Dr'). exists (swapxy r). split.
  - unfold tdot. rewrite Z. cbn [pdm pxd pyd pnn]. rewrite dims_assert; auto. 2:{ pose proof (ct_d _ _ C) as B. unfold sD, swapxy in *. cbn [tv xd yd nn dm] in B. rewrite (Nat.add_comm (yd o)), (Nat.add_comm (yd s)) in B. exact B. }
    cbn [py_assert rbind]. rewrite Xo. cbn [Nat.ltb Nat.leb andb]. apply Nat.ltb_lt in Yo. cbn [Nat.ltb Nat.leb] in Yo. rewrite Yo.
    rewrite ttranspose_absent by auto. cbn [rbind ptranspose]. rewrite ttranspose_absent by auto. cbn [rmap rbind tdot_left_any]. rewrite Er. cbn [rbind ptranspose].
    rewrite ttranspose_absent by auto. reflexivity.
  - split; [exact Wr'|]. split; [auto|]. eapply dsame_trans; [exact Dr'|]. destruct Dr as (E1 & E2 & E3 & E4 & V). unfold dsame. cbn [dtrans xs ys ns ds at_].
    repeat (split; [assumption|]). intros x y n d H1 H2 H3 H4. now apply V.
Qed.
Lemma tdot_zero s o : is_zero0 (tv s) = true -> tdot s o = Ok (PT s).
Proof. intros Z. unfold tdot. now rewrite Z. Qed.
