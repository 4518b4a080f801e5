(** GenericTensor.sum(False, True) (tensor/tensor.py 233-282): the dim axes are added
    up and the features kept.  Elements that are constant along a dim axis (stored with
    size 1) count with the size of that axis. *)
From Verif Require Import Prelude DenseModel AnalyticSpec DenseProofs NDArray NDProofs TensorModel TensorSpec TensorSpecOps TensorLemmas TensorBasic TensorSum TensorSumMain TensorBin TensorArith TensorShape TensorExpand TensorMore TensorGeneric TensorGSum FTRep FTRep2 FTWrap LTProd TensorGOps TensorGMul FTModel.
From Verif Require FuncCollapse.
From Coq Require Import Reals Lra.
Import List ListNotations.
Open Scope R_scope.

Definition sumD (D : list nat) (a : dt) : dt := DT (xs a) (ys a) (ns a) [] (fun x y n _ => Rsum (fun d => get a x y n d) (indices D)).
Lemma get_sumD D a x y n d : get (sumD D a) x y n d = Rsum (fun d' => get a x y n d') (indices D).
Proof. unfold get at 1, sumD. cbn [at_ xs ys ns ds]. apply Rsum_ext. intros d' _. unfold get. now rewrite !clamp_idem. Qed.
Definition noD (S : shape4) : shape4 := SH (SX S) (SY S) (SN S) [].
Lemma dsame_dmap f a b : dsame a b -> dsame (dmap f a) (dmap f b).
Proof. intros (E1 & E2 & E3 & E4 & V). unfold dsame. cbn [dmap xs ys ns ds at_]. do 4 (split; [assumption|]). intros x y n d Hx Hy Hn Hd. now rewrite V. Qed.
Lemma fdims S D k t : spos S -> posl D -> fits S t -> (0 < k)%nat -> nn t = k -> le1 (sD t) D ->
  exists u r, tsum t SVFalse true = Ok u /\ tbin_num u (INR (prodn D) / INR (prodn (sD t))) MUL = Ok r /\ fits (noD S) r /\ dsame (den r) (sumD D (den t)).
Proof.
  intros PS PD F K HK L. pose proof (ft_wf _ _ F) as W. pose proof (wf_groups t W) as G. destruct (wf_den_pos t W) as (P1 & P2 & P3 & P4).
  destruct (tsum_dims_ok t W (ft_feat _ _ F)) as (u & Eu & Wu & Tu & Du).
  pose proof Eu as Ei. unfold tsum in Ei. destruct (bind_inv _ _ _ Ei) as (val & _ & Et). apply Tensor_inv in Et as (Mx & My & _).
  pose proof Du as (E1 & E2 & E3 & E4 & _). cbn [dsum_axes xs ys ns ds] in E1, E2, E3, E4.
  change (ns (den u)) with (sN u) in E3. change (ns (den t)) with (sN t) in E3. change (ds (den u)) with (sD u) in E4.
  assert (Fu : fits (noD S) u).
  { assert (Hn : sN t <> []) by (intros Z; pose proof (g_n _ _ _ _ _ G) as Ln; rewrite Z in Ln; cbn in Ln; lia).
    assert (NN : nn u = nn t) by now rewrite <- (g_n _ _ _ _ _ (wf_groups u Wu)), <- (g_n _ _ _ _ _ G), E3.
    constructor; cbn [noD SX SY SN SD]; auto.
    - intros Z. apply (rank_groups u Wu) in Z as (_ & _ & Z & _). apply Hn. rewrite <- E3. exact Z.
    - rewrite E1. apply F.
    - rewrite E2. apply F.
    - rewrite E3. apply F.
    - rewrite E4. now left.
    - intros f. rewrite Mx, My, E3. apply (ft_full _ _ F). }
  change (ds (den t)) with (sD t) in P4.
  set (c := INR (prodn D) / INR (prodn (sD t))).
  assert (Hc : c <> 0). { pose proof (prodn_pos D PD). pose proof (prodn_pos _ P4). unfold c. apply Rmult_integral_contrapositive_currified; [apply not_0_INR; lia|apply Rinv_neq_0_compat, not_0_INR; lia]. }
  destruct (fnum_mul (noD S) u c MUL Fu (or_introl eq_refl) Hc) as (r & Er & Fr & Dr). exists u, r. split; [exact Eu|]. split; [exact Er|]. split; [exact Fr|].
  eapply dsame_trans; [exact Dr|]. eapply dsame_trans; [apply dsame_dmap; exact Du|]. apply dsame_intro; [reflexivity|].
  intros x y n d (_ & _ & Hn & _). cbn [SN shape_of dmap dsum_axes ns] in Hn. rewrite get_dmap, get_sumD, FuncCollapse.get_dsum_axes. cbn [op_fun]. rewrite Rsum_cons, Rsum_nil.
  rewrite (Rsum_ext (fun d' => get (den t) x y n d') (fun d' => get (den t) x y n (clamp (sD t) d')) (indices D)).
  2:{ intros d' _. unfold get. change (ds (den t)) with (sD t). now rewrite clamp_idem. }
  rewrite (Rsum_bcast (sD t) D L P4 PD (fun d' => get (den t) x y n d')). fold c. change (ds (den t)) with (sD t). ring.
Qed.

Theorem gsum_dims_ok S g : spos S -> gfits S g -> uniform g -> els g <> [] -> (0 < gn g)%nat ->
  exists g', gsum g SVFalse true = Ok (PG g') /\ gfits (noD S) g' /\ dsame (gden g') (dsum_axes (gden g) false true) /\
    gx g' = gx g /\ gy g' = gy g /\ gn g' = gn g /\ gd g' = 0%nat /\ length (els g') = length (els g).
Proof.
  intros PS Fg U NE Hn. pose proof (uniform_ready S g PS Fg U NE) as RD. pose proof (shape_gden g) as SG. set (T := gshape (els g)) in *.
  destruct (size_ok g T true false RD NE eq_refl) as [E1 E2]. cbn [app] in E1, E2. destruct (gr_pos _ _ RD) as (PX & PY & PN & PD).
  assert (It : exists es', rmapM (fun es => let '(e, sh) := es in on_item (fun t => let! u := tsum t SVFalse true in let! w := tbin_num u (INR (prodn (dpart true (SD T))) / INR (prodn sh)) MUL in Ok (IT w)) e)
      (combine (els g) (map (fun e => dpart true (ds (iden e))) (els g))) = Ok es' /\ Forall2 (relel (sumD (SD T)) S (noD S) (fun _ => True)) (els g) es').
  { assert (A : Forall (fun e => exists t, e = IT t /\ fits S t /\ nn t = gn g /\ le1 (sD t) (SD T)) (els g)).
    { apply Forall_forall. intros e He. destruct (gr_el _ _ RD e He) as (t & -> & _ & N & _ & _ & L). exists t. split; [reflexivity|].
      destruct (proj1 (Forall_forall _ _) Fg _ He) as (t' & Et & Ft). injection Et as <-. auto. }
    clear - A PS PD Hn. clearbody T. induction A as [|e es (t & -> & Ft & N & L) _ (es' & E & RR)]; [exists []; split; [reflexivity|constructor]|].
    cbn [map combine rmapM on_item dpart iden]. change (ds (den t)) with (sD t).
    destruct (fdims S (SD T) (gn g) t PS PD Ft Hn N L) as (u & r & Eu & Er & Fr & De). rewrite Eu. cbn [rbind]. rewrite Er. cbn [rbind].
    cbn [dpart] in E. rewrite E. cbn [rbind]. exists (IT r :: es'). split; [reflexivity|]. constructor; [|exact RR]. exists t, r. repeat (split; [solve [auto]|]). exact De. }
  destruct It as (es' & E & RR). set (g' := mkG (gx g) (gy g) (gn g) 0 es'). exists g'. split.
  { unfold gsum. cbn [andb negb app]. rewrite E1. cbn [rbind]. rewrite E2, E. reflexivity. }
  assert (PS' : spos (noD S)) by (destruct PS as (? & ? & ? & ?); repeat split; auto; constructor).
  assert (ST : SD T = ds (gden g)) by (rewrite <- SG; reflexivity).
  destruct (gre_same (sumD (SD T)) S (noD S) (fun _ => True) g g' PS' RR) as (G1 & G2).
  - change (els g') with es'. unfold shape_of, gshape. cbn [sumD xs ys ns ds]. rewrite gd_xs, gd_ys, gd_ns.
    rewrite (rel_sizes xs xs _ _ _ _ _ _ RR dsame_xs (fun _ => eq_refl)), (rel_sizes ys ys _ _ _ _ _ _ RR dsame_ys (fun _ => eq_refl)),
      (rel_sizes ns ns _ _ _ _ _ _ RR dsame_ns (fun _ => eq_refl)), (rel_sizes ds (fun _ => []) _ _ _ _ _ _ RR dsame_ds (fun _ => eq_refl)). f_equal.
    clear. induction (els g) as [|e es IH]; [reflexivity|]. cbn [map]. unfold bmaxs in *. cbn [fold_right]. now rewrite <- IH.
  - intros x y n d _. rewrite get_sumD. rewrite (Rsum_ext (fun d' => get (gden g) x y n d') (fun d' => Rsum (fun e => get (iden e) x y n d') (els g))) by (intros; apply get_gden).
    rewrite Rsum_swap. apply Rsum_ext. intros e _. now rewrite get_sumD.
  - split; [exact G1|]. split; [|do 4 (split; [reflexivity|]); clear - RR; change (els g') with es'; induction RR; cbn [length]; congruence].
    eapply dsame_trans; [exact G2|]. apply dsame_intro; [reflexivity|]. intros x y n d _. rewrite get_sumD, FuncCollapse.get_dsum_axes, Rsum_cons, Rsum_nil, ST. ring.
Qed.

(** summing over one of several features does not sum at all: tensor.py:279-281 drops
    the list of axes *)
Theorem gsum_one_feature S g k : spos S -> gfits S g -> uniform g -> els g <> [] -> (2 <= gn g)%nat -> gd g = 0%nat -> (k < gn g)%nat ->
  (forall t, In (IT t) (els g) -> sN t = ns (gden g)) ->
  exists g', gsum g (SVInt k) false = Ok (PG g') /\ els g' = els g /\ ns (gden g') = ns (gden g).
Proof.
  intros PS Fg U NE Hn Hd Hk Full. destruct k as [|k].
  { exists g. repeat split. }
  set (T := gshape (els g)).
  assert (GN : length (ns (gden g)) = gn g).
  { destruct (els g) as [|e es] eqn:Ee; [congruence|]. unfold gfits in Fg. rewrite Ee in Fg. inversion Fg as [|? ? (t & -> & Ft) _]; subst.
    rewrite <- (Full t) by now left. destruct (un_nd _ U t) as [N _]; [rewrite Ee; now left|]. rewrite <- N. apply (g_n _ _ _ _ _ (wf_groups t (ft_wf _ _ Ft))). }
  set (s := nth (Datatypes.S k) (ns (gden g)) 0%nat).
  assert (A : Forall (fun e => exists t, e = IT t /\ wf t /\ sN t = ns (gden g) /\ dm t = 0%nat) (els g)).
  { apply Forall_forall. intros e He. destruct (proj1 (Forall_forall _ _) Fg _ He) as (t & -> & Ft). exists t. split; [reflexivity|]. split; [apply Ft|]. split; [now apply Full|]. rewrite <- Hd. now apply U. }
  assert (Ps : (0 < s)%nat).
  { assert (Pn : posl (ns (gden g))) by (destruct (dpos_gden S g Fg) as (_ & _ & Q & _); exact Q). unfold s. apply (proj1 (Forall_forall _ _) Pn). apply nth_In. lia. }
  assert (E1 : rmapM (on_item (fun t => rmapM (fun k => match nth_error (shp (tv t)) (xd t + yd t + k) with Some s => Ok s | None => Raise IndexError end) [Datatypes.S k])) (els g) = Ok (map (fun _ => [s]) (els g))).
  { apply rmapM_map. intros e He. destruct (proj1 (Forall_forall _ _) A e He) as (t & -> & W & SN_ & _). cbn [on_item rmapM].
    pose proof (wf_groups t W) as [GS Lx Ly Ln Ld]. rewrite GS. rewrite nth_error_app2 by lia. rewrite nth_error_app2 by lia. replace (xd t + yd t + Datatypes.S k - length (sX t) - length (sY t))%nat with (Datatypes.S k) by lia.
    rewrite nth_error_app1 by (rewrite SN_; lia). rewrite SN_. rewrite (nth_error_nth' _ 0%nat) by lia. reflexivity. }
  assert (E2 : fold_left (fun a s => map (fun ab => Nat.max (fst ab) (snd ab)) (combine a s)) (map (fun _ => [s]) (els g)) [1%nat] = [s]).
  { destruct (els g) as [|e es]; [congruence|]. cbn [map fold_left combine fst snd]. replace (Nat.max 1 s) with s by lia. clear. induction es as [|e es IH]; [reflexivity|]. cbn [map fold_left combine fst snd]. now rewrite Nat.max_id. }
  exists (mkG (gx g) (gy g) (gn g) 0 (els g)). split; [|split; reflexivity].
  unfold gsum. cbn [andb negb app length]. replace (Nat.eqb 1 (gn g)) with false by (symmetry; apply Nat.eqb_neq; lia). rewrite E1. cbn [rbind repeat]. rewrite E2.
  assert (E3 : rmapM (fun es => let '(e, sh) := es in on_item (fun t => let! u := tsum t SVFalse false in let! w := tbin_num u (INR (prodn [s]) / INR (prodn sh)) MUL in Ok (IT w)) e) (combine (els g) (map (fun _ => [s]) (els g))) = Ok (els g)).
  { clear - A Ps. induction A as [|e es (t & -> & W & _ & D) _ IH]; [reflexivity|]. cbn [map combine rmapM on_item]. unfold tsum at 1. cbn [rbind].
    assert (Et : Tensor (tv t) (xd t) (yd t) 0 (xm t) (ym t) = Ok t).
    { pose proof (wf_groups t W) as [GS Lx Ly Ln Ld]. unfold Tensor, ndim. rewrite GS, !app_length. replace (Nat.ltb _ _) with false by (symmetry; apply Nat.ltb_ge; lia).
      f_equal. replace (length (sX t) + (length (sY t) + (length (sN t) + length (sD t))) - xd t - yd t - 0)%nat with (nn t) by lia.
      destruct t; cbn in *. now rewrite D. }
    rewrite Et. cbn [rbind]. replace (INR (prodn [s]) / INR (prodn [s])) with 1 by (symmetry; apply Rinv_r, not_0_INR; cbn; lia).
    unfold tbin_num at 1. destruct (Req_EM_T 1 0); [lra|]. destruct (Req_EM_T 1 1); [|lra]. cbn [rbind]. rewrite IH. reflexivity. }
  rewrite E3. reflexivity.
Qed.
