(** Axis maps: swapping and expanding mapped axes. *)
From Verif Require Import Prelude DenseModel AnalyticSpec DenseProofs NDArray NDProofs TensorModel TensorSpec.
From Coq Require Import Reals Lra.
Import List ListNotations.
Open Scope R_scope.

(** group coordinates after exchanging every mapped axis with its target *)
Fixpoint gx_ (m : amap) (x nd : idx) : idx :=
  match m, x with
  | Some f :: m', _ :: x' => nth f nd O :: gx_ m' x' nd
  | None :: m', k :: x' => k :: gx_ m' x' nd
  | _, _ => x
  end.
Fixpoint gn_ (m : amap) (x nd : idx) : idx :=
  match m, x with
  | Some f :: m', k :: x' => upd_nth f k (gn_ m' x' nd)
  | None :: m', _ :: x' => gn_ m' x' nd
  | _, _ => nd
  end.
Lemma gx_length m x nd : length (gx_ m x nd) = length x.
Proof. revert x; induction m as [|[f|] m IH]; intros [|k x]; cbn; auto. Qed.
Lemma gn_length m x nd : length (gn_ m x nd) = length nd.
Proof. revert x; induction m as [|[f|] m IH]; intros [|k x]; cbn; auto. now rewrite upd_nth_length. Qed.
Lemma gx_upd m x nd f a : ~ In f (targets m) -> gx_ m x (upd_nth f a nd) = gx_ m x nd.
Proof.
  revert x; induction m as [|[g|] m IH]; intros [|k x] H; cbn in *; auto.
  - rewrite nth_upd_neq by (intros ->; tauto). now rewrite IH by tauto.
  - now rewrite IH.
Qed.
Lemma gn_upd m x nd f a : ~ In f (targets m) -> gn_ m x (upd_nth f a nd) = upd_nth f a (gn_ m x nd).
Proof.
  revert x; induction m as [|[g|] m IH]; intros [|k x] H; cbn in *; auto.
  rewrite IH by tauto. apply upd_comm. intros ->; tauto.
Qed.
Lemma nth_gn m x nd f : ~ In f (targets m) -> nth f (gn_ m x nd) O = nth f nd O.
Proof.
  revert x; induction m as [|[g|] m IH]; intros [|k x] H; cbn in *; auto.
  rewrite nth_upd_neq by tauto. apply IH; tauto.
Qed.
Lemma NoDup_targets f m : NoDup (targets (Some f :: m)) -> ~ In f (targets m) /\ NoDup (targets m).
Proof. intros H; now inversion H. Qed.

Definition short (m : amap) (x : list nat) : Prop := (length m <= length x)%nat.
Lemma short_single m sx : single_at m sx -> short m sx.
Proof.
  unfold short. revert sx; induction m as [|[f|] m IH]; intros [|s sx] H; cbn in *; try lia; try tauto.
  - destruct H as [_ H]. apply IH in H. lia.
  - apply IH in H. lia.
Qed.

(** tensor.py:39-43 *)
Lemma swapaxes_ok m : forall k q p arr pre sx mid sn,
  shp arr = pre ++ sx ++ mid ++ sn -> (q + k = length pre)%nat -> (p = length pre + length sx + length mid)%nat ->
  short m sx -> NoDup (targets m) -> Forall (fun f => f < length sn)%nat (targets m) ->
  exists r, arr_swapaxes_from k arr q p m = Ok r /\ shp r = pre ++ gx_ m sx sn ++ mid ++ gn_ m sx sn /\
    forall ip x im nd, length ip = length pre -> length x = length sx -> length im = length mid -> length nd = length sn ->
      el r (ip ++ x ++ im ++ nd) = el arr (ip ++ gx_ m x nd ++ im ++ gn_ m x nd).
Proof.
  unfold short.
  induction m as [|[f|] m IH]; intros k q p arr pre sx mid sn E Eq Ep Sh ND T; cbn [arr_swapaxes_from gx_ gn_].
  - exists arr. repeat split; auto.
  - apply NoDup_targets in ND as [Nf ND]. inversion T as [|? ? Tf T']; subst x l. fold targets in *.
    destruct sx as [|s sx]; [cbn in Sh; lia|]. cbn [length] in *.
    assert (LE : length (shp arr) = (length pre + S (length sx + (length mid + length sn)))%nat).
    { rewrite E, app_length. cbn [length app]. now rewrite !app_length. }
    unfold np_swapaxes, ndim. rewrite LE.
    replace (_ && _) with true by (symmetry; apply andb_true_intro; split; apply Nat.ltb_lt; lia).
    cbn [rbind].
    set (arr1 := mkA _ _).
    assert (P : (p + f = length pre + S (length (sx ++ mid)) + f)%nat) by (rewrite app_length; lia).
    assert (E1 : shp arr1 = (pre ++ [nth f sn O]) ++ sx ++ mid ++ upd_nth f s sn).
    { subst arr1; cbn [shp]. rewrite E, Eq, P. cbn [app]. rewrite (app_assoc sx mid sn), swapl_group by auto.
      now rewrite <- !app_assoc. }
    destruct (IH (S k) q p arr1 _ _ _ _ E1) as (r & Er & Es & Ee); rewrite ?app_length, ?upd_nth_length; cbn [length]; auto; try lia.
    exists r. split; [exact Er|]. split.
    { rewrite Es, gx_upd, gn_upd by auto. now rewrite <- app_assoc. }
    intros ip x im nd L1 L2 L3 L4. destruct x as [|a x]; [discriminate|]. cbn [app gx_ gn_].
    specialize (Ee (ip ++ [a]) x im nd). rewrite !app_length in Ee. cbn [length] in *. rewrite <- !app_assoc in Ee. cbn [app] in Ee.
    rewrite Ee by (rewrite ?upd_nth_length; lia). subst arr1; cbn [el]. rewrite Eq, P.
    rewrite (app_assoc (gx_ m x nd)).
    replace (length pre) with (length ip) by auto.
    replace (length (sx ++ mid)) with (length (gx_ m x nd ++ im)) by (rewrite !app_length, gx_length; lia).
    rewrite swapl_group by (rewrite gn_length; lia). rewrite nth_gn by auto. now rewrite <- !app_assoc.
  - destruct sx as [|s sx]; [cbn in Sh; lia|]. cbn [length targets] in *.
    destruct (IH (S k) q p arr (pre ++ [s]) sx mid sn) as (r & Er & Es & Ee); rewrite ?app_length; cbn [length]; auto; try lia.
    { now rewrite E, <- app_assoc. }
    exists r. split; [exact Er|]. split; [now rewrite Es, <- app_assoc|].
    intros ip x im nd L1 L2 L3 L4. destruct x as [|a x]; [discriminate|].
    specialize (Ee (ip ++ [a]) x im nd). rewrite !app_length in Ee. cbn [length] in *. rewrite <- !app_assoc in Ee. cbn [app] in Ee.
    cbn [gx_ gn_ app]. apply Ee; lia.
Qed.

(** *** Single axes *)
Lemma ones_at_group (pre : list nat) (s : nat) (mid sn : list nat) f n : (f < length sn)%nat ->
  ones_at (length (pre ++ s :: mid ++ sn)) (length pre) (length pre + S (length mid) + f) n =
  repeat 1%nat (length pre) ++ n :: repeat 1%nat (length mid) ++ upd_nth f n (repeat 1%nat (length sn)).
Proof.
  intros H. unfold ones_at. rewrite app_length. cbn [length]. rewrite app_length, repeat_app.
  cbn [repeat]. rewrite repeat_app.
  replace (upd_nth (length pre) n (repeat 1%nat (length pre) ++ 1%nat :: repeat 1%nat (length mid) ++ repeat 1%nat (length sn)))
    with (repeat 1%nat (length pre) ++ n :: repeat 1%nat (length mid) ++ repeat 1%nat (length sn)).
  2:{ transitivity (upd_nth (length pre + 0) n (repeat 1%nat (length pre) ++ 1%nat :: repeat 1%nat (length mid) ++ repeat 1%nat (length sn))).
      - rewrite upd_app2' by apply repeat_length. reflexivity.
      - now rewrite Nat.add_0_r. }
  rewrite <- Nat.add_assoc, upd_app2' by apply repeat_length. cbn [plus upd_nth].
  now rewrite upd_app2' by apply repeat_length.
Qed.
Lemma upd_ones_compat f sn : Forall2 bcompat sn (upd_nth f (nth f sn O) (repeat 1%nat (length sn))).
Proof.
  revert f; induction sn as [|s sn IH]; intros [|f]; cbn; constructor; auto.
  - left; auto.
  - apply bcompat_sym, bcompat_ones.
  - right; right; auto.
Qed.
Lemma upd_ones_bmax f sn : posl sn -> bmax sn (upd_nth f (nth f sn O) (repeat 1%nat (length sn))) = sn.
Proof.
  intros H; revert f; induction H as [|s sn Hs H IH]; intros [|f]; cbn [length repeat upd_nth nth bmax]; auto.
  - rewrite Nat.max_id. f_equal. rewrite bmax_comm. now apply bmax_ones.
  - rewrite IH. f_equal; lia.
Qed.
Lemma upd_ones_pos f sn : posl sn -> posl (upd_nth f (nth f sn O) (repeat 1%nat (length sn))).
Proof.
  intros H; revert f; induction H as [|s sn Hs H IH]; intros [|f]; cbn [length repeat upd_nth nth]; constructor; auto.
  - apply pos_ones.
  - apply IH.
Qed.
Lemma clampi_lt n k : (k < n)%nat -> clampi n k = k.
Proof. unfold clampi. destruct (Nat.leb_spec n 1); lia. Qed.
Lemma clampi_1 k : clampi 1 k = O. Proof. reflexivity. Qed.
Lemma nth_clamp sh i j : (j < length sh)%nat -> length i = length sh -> nth j (clamp sh i) O = clampi (nth j sh O) (nth j i O).
Proof.
  revert i j; induction sh as [|s sh IH]; intros [|k i] j H L; cbn in *; try lia.
  destruct j; auto. apply IH; lia.
Qed.
Lemma in_app2 a b i j : length i = length a -> In (i ++ j) (indices (a ++ b)) <-> In i (indices a) /\ In j (indices b).
Proof.
  intros L. rewrite in_indices_app, <- L, firstn_app, firstn_all, Nat.sub_diag, skipn_app, skipn_all, Nat.sub_diag. cbn.
  now rewrite app_nil_r.
Qed.
Lemma in_cons s sh k i : In (k :: i) (indices (s :: sh)) <-> (k < s)%nat /\ In i (indices sh).
Proof. rewrite !In_indices. apply Forall2_cons_iff. Qed.
Lemma in_nth sh i j : In i (indices sh) -> (j < length sh)%nat -> (nth j i O < nth j sh O)%nat.
Proof.
  rewrite In_indices. intros H; revert j; induction H; intros j L; cbn in *; [lia|]. destruct j; auto. apply IHForall2; lia.
Qed.

(** one more mapped axis made explicit *)
Lemma expand1_ok arr pre mid sn f : shp arr = pre ++ 1%nat :: mid ++ sn -> posl (shp arr) -> (f < length sn)%nat ->
  let n := nth f sn O in
  exists r, np_bin Rmult arr (np_eye_at (ndim arr) (length pre) (length pre + S (length mid) + f) n) = Ok r /\
    shp r = pre ++ n :: mid ++ sn /\
    forall ip k im nd, In ip (indices pre) -> (k < n)%nat -> In im (indices mid) -> In nd (indices sn) ->
      el r (ip ++ k :: im ++ nd) = el arr (ip ++ O :: im ++ nd) * delta k (nth f nd O).
Proof.
  intros E P H n. pose proof P as P0. rewrite E in P0. apply pos_app in P0 as [Pp P0].
  inversion P0 as [|? ? _ P1]; subst x l. apply pos_app in P1 as [Pm Pn].
  assert (Ss : shp (np_eye_at (ndim arr) (length pre) (length pre + S (length mid) + f) n) =
    repeat 1%nat (length pre) ++ n :: repeat 1%nat (length mid) ++ upd_nth f n (repeat 1%nat (length sn))).
  { cbn [np_eye_at shp]. unfold ndim. rewrite E. now apply ones_at_group. }
  assert (Hn : (1 <= n)%nat) by (eapply Forall_forall in Pn; [exact Pn|apply nth_In; auto]).
  destruct (np_bin_ok Rmult arr (np_eye_at (ndim arr) (length pre) (length pre + S (length mid) + f) n)) as (r & Er & Es & Ee).
  - rewrite Ss, E. apply Forall2_app; [apply bcompat_sym, bcompat_ones|]. constructor; [right; left; auto|].
    apply Forall2_app; [apply bcompat_sym, bcompat_ones|apply upd_ones_compat].
  - auto.
  - rewrite Ss. apply pos_app. split; [apply pos_ones|]. constructor; auto. apply pos_app. split; [apply pos_ones|].
    now apply upd_ones_pos.
  - exists r. split; [exact Er|]. rewrite Es, Ss, E.
    rewrite bmax_app by (now rewrite repeat_length). cbn [bmax]. rewrite bmax_app by (now rewrite repeat_length).
    rewrite (bmax_comm pre), (bmax_comm mid), !bmax_ones by auto. rewrite upd_ones_bmax by auto.
    replace (Nat.max 1 n) with n by lia. split; [reflexivity|].
    intros ip k im nd Hp Hk Hm Hd.
    pose proof (indices_length _ _ Hp) as Lp. pose proof (indices_length _ _ Hm) as Lm. pose proof (indices_length _ _ Hd) as Ld.
    rewrite Ee by (unfold ndim; rewrite E, !app_length; cbn [length]; rewrite !app_length; lia).
    rewrite Ss, E. rewrite clamp_app by auto. cbn [clamp]. rewrite clamp_app by auto.
    rewrite (clamp_in pre), (clamp_in mid), (clamp_in sn), clampi_1 by auto. f_equal.
    cbn [np_eye_at el].
    set (sh' := repeat 1%nat (length pre) ++ _).
    assert (Ls : length sh' = length (ip ++ k :: im ++ nd)).
    { subst sh'. rewrite !app_length. cbn [length]. rewrite !app_length, upd_nth_length, !repeat_length. lia. }
    assert (Li : length (ip ++ k :: im ++ nd) = (length ip + S (length im + length nd))%nat).
    { rewrite app_length. cbn [length]. rewrite app_length. lia. }
    rewrite !nth_clamp by lia. subst sh'.
    f_equal.
    + rewrite app_nth2 by (rewrite repeat_length; lia). rewrite repeat_length, Nat.sub_diag.
      rewrite (app_nth2 ip) by lia. replace (length pre - length ip)%nat with O by lia. cbn [nth]. now apply clampi_lt.
    + rewrite app_nth2 by (rewrite repeat_length; lia). rewrite repeat_length.
      replace (length pre + S (length mid) + f - length pre)%nat with (S (length mid + f)) by lia. cbn [nth].
      rewrite app_nth2 by (rewrite repeat_length; lia). rewrite repeat_length.
      replace (length mid + f - length mid)%nat with f by lia. rewrite nth_upd_eq by (rewrite repeat_length; auto).
      rewrite (app_nth2 ip) by lia. replace (length pre + S (length mid) + f - length ip)%nat with (S (length im + f)) by lia. cbn [nth].
      rewrite app_nth2 by lia. replace (length im + f - length im)%nat with f by lia.
      apply clampi_lt. now apply in_nth.
Qed.

Lemma msizes_length m sx nd : length (msizes m sx nd) = length sx.
Proof. revert sx; induction m as [|[f|] m IH]; intros [|s sx]; cbn; auto. Qed.
Lemma stored_length m x : length (stored m x) = length x.
Proof. revert x; induction m as [|[f|] m IH]; intros [|s x]; cbn; auto. Qed.

(** tensor.py:56-67 *)
Lemma expand_diag_ok m : forall k q p arr pre sx mid sn,
  shp arr = pre ++ sx ++ mid ++ sn -> (q + k = length pre)%nat -> (p = length pre + length sx + length mid)%nat ->
  single_at m sx -> Forall (fun f => f < length sn)%nat (targets m) -> posl (shp arr) ->
  exists r, arr_expand_diag_from k arr q p m = Ok r /\ shp r = pre ++ msizes m sx sn ++ mid ++ sn /\
    forall ip x im nd, In ip (indices pre) -> In x (indices (msizes m sx sn)) -> In im (indices mid) -> In nd (indices sn) ->
      el r (ip ++ x ++ im ++ nd) = el arr (ip ++ stored m x ++ im ++ nd) * deltas m x nd.
Proof.
  induction m as [|[f|] m IH]; intros k q p arr pre sx mid sn E Eq Ep Sg T P; cbn [arr_expand_diag_from].
  - exists arr. split; [reflexivity|]. split; [exact E|]. intros. cbn. lra.
  - destruct sx as [|s sx]; [destruct Sg|]. cbn [single_at] in Sg. destruct Sg as [-> Sg].
    inversion T as [|? ? Tf T']; subst x l. fold targets in *. cbn [length] in *.
    assert (LE : length (shp arr) = (length pre + S (length sx + (length mid + length sn)))%nat).
    { rewrite E, app_length. cbn [length app]. now rewrite !app_length. }
    replace (_ && _) with true by (symmetry; apply andb_true_intro; unfold ndim; rewrite LE; split; apply Nat.ltb_lt; lia).
    assert (E' : shp arr = pre ++ 1%nat :: (sx ++ mid) ++ sn) by (rewrite E; cbn [app]; now rewrite <- app_assoc).
    destruct (expand1_ok arr pre (sx ++ mid) sn f E' P Tf) as (r1 & E1 & S1 & V1).
    assert (Hn : nth (p + f) (shp arr) O = nth f sn O).
    { rewrite E'. rewrite app_nth2 by lia. replace (p + f - length pre)%nat with (S (length (sx ++ mid) + f)) by (rewrite app_length; lia).
      cbn [nth]. rewrite app_nth2 by lia. f_equal; lia. }
    rewrite Hn, Eq. replace (p + f)%nat with (length pre + S (length (sx ++ mid)) + f)%nat by (rewrite app_length; lia).
    rewrite E1. cbn [rbind].
    assert (S2 : shp r1 = (pre ++ [nth f sn O]) ++ sx ++ mid ++ sn) by (rewrite S1, <- !app_assoc; reflexivity).
    assert (P2 : posl (shp r1)).
    { rewrite E' in P. rewrite S1. apply pos_app in P as [Pp P]. inversion P as [|? ? _ P3]; subst. apply pos_app. split; auto.
      constructor; auto. apply pos_app in P3 as [_ P3]. eapply Forall_forall in P3; [exact P3|]. apply nth_In; auto. }
    destruct (IH (S k) q p r1 _ _ _ _ S2) as (r & Er & Es & Ee); rewrite ?app_length; cbn [length]; auto; try lia.
    exists r. split; [exact Er|]. cbn [msizes]. rewrite (nth_indep sn 1%nat O) by auto. split; [rewrite Es, <- app_assoc; reflexivity|].
    intros ip x im nd Hp Hx Hm Hd. destruct x as [|a x]; [apply indices_length in Hx; discriminate|].
    apply in_cons in Hx as [Ha Hx].
    specialize (Ee (ip ++ [a]) x im nd). rewrite <- !app_assoc in Ee. cbn [app] in Ee.
    cbn [app stored deltas].
    rewrite Ee; auto.
    2:{ apply in_indices_app2; auto. apply in_cons; split; auto. cbn; auto. }
    rewrite (app_assoc (stored m x)), V1; auto.
    2:{ apply in_indices_app2; auto. rewrite In_indices in *. clear - Hx Sg P E'.
        rewrite E' in P. apply pos_app in P as [_ P]. inversion P as [|? ? _ P3]; subst. apply pos_app in P3 as [P3 _].
        apply pos_app in P3 as [P3 _]. clear E' P. revert x sx Sg P3 Hx.
        induction m as [|[g|] m IH]; intros x sx Sg P3 Hx; cbn in *; auto; destruct sx as [|s sx]; try tauto.
        - destruct x as [|a x]; [inversion Hx|]. apply Forall2_cons_iff in Hx as [_ Hx]. inversion P3; subst. destruct Sg as [-> Sg]. cbn.
          constructor; [lia|]. eapply IH; eauto.
        - destruct x as [|a x]; [inversion Hx|]. apply Forall2_cons_iff in Hx as [? Hx]. inversion P3; subst. cbn.
          constructor; [lia|]. eapply IH; eauto. }
    rewrite <- app_assoc. cbn. ring.
  - destruct sx as [|s sx]; [destruct Sg|]. cbn [length targets single_at] in *.
    destruct (IH (S k) q p arr (pre ++ [s]) sx mid sn) as (r & Er & Es & Ee); rewrite ?app_length; cbn [length]; auto; try lia.
    { now rewrite E, <- app_assoc. }
    exists r. split; [exact Er|]. split; [now rewrite Es, <- app_assoc|].
    intros ip x im nd Hp Hx Hm Hd. destruct x as [|a x]; [apply indices_length in Hx; discriminate|].
    cbn [msizes] in Hx. apply in_cons in Hx as [Ha Hx].
    specialize (Ee (ip ++ [a]) x im nd). rewrite <- !app_assoc in Ee. cbn [app] in Ee.
    cbn [stored deltas app]. apply Ee; auto. apply in_indices_app2; auto. apply in_cons; cbn; auto.
Qed.
Lemma stored_in m sx sn x : single_at m sx -> posl sx -> In x (indices (msizes m sx sn)) -> In (stored m x) (indices sx).
Proof.
  rewrite !In_indices. revert x sx; induction m as [|[g|] m IH]; intros x sx Sg P3 Hx; cbn in *; auto; destruct sx as [|s sx]; try tauto.
  - destruct x as [|a x]; [inversion Hx|]. apply Forall2_cons_iff in Hx as [_ Hx]. inversion P3; subst. destruct Sg as [-> Sg]. cbn.
    constructor; [lia|]. eapply IH; eauto.
  - destruct x as [|a x]; [inversion Hx|]. apply Forall2_cons_iff in Hx as [? Hx]. inversion P3; subst. cbn.
    constructor; [lia|]. eapply IH; eauto.
Qed.
