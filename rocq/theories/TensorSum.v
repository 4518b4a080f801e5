(** Tensor.sum *)
From Verif Require Import Prelude DenseModel AnalyticSpec DenseProofs NDArray NDProofs TensorModel TensorSpec TensorLemmas TensorBasic.
From Coq Require Import Reals Lra.
Import List ListNotations.
Open Scope R_scope.

(** *** Sums over index sets *)
Lemma Rsum_indices_cons f s sh : Rsum f (indices (s :: sh)) = Rsum (fun k => Rsum (fun i => f (k :: i)) (indices sh)) (seq 0 s).
Proof.
  cbn [indices]. generalize 0%nat as a. induction s as [|s IH]; intros a; cbn [seq flat_map]; [reflexivity|].
  rewrite Rsum_app, Rsum_cons, Rsum_map, IH. reflexivity.
Qed.
Lemma Rsum_indices_app f a b : Rsum f (indices (a ++ b)) = Rsum (fun i => Rsum (fun j => f (i ++ j)) (indices b)) (indices a).
Proof.
  revert f; induction a as [|s a IH]; intros f; cbn [app].
  - cbn [indices]. rewrite Rsum_cons, Rsum_nil, Rplus_0_r. reflexivity.
  - rewrite !Rsum_indices_cons. apply Rsum_ext. intros k _. now rewrite IH.
Qed.
Lemma Rsum_list_prod (F : idx -> idx -> R) (L1 L2 : list idx) :
  Rsum (fun p : idx * idx => let '(n', d') := p in F n' d') (list_prod L1 L2) = Rsum (fun n => Rsum (F n) L2) L1.
Proof. induction L1 as [|a1 L1 IH]; [reflexivity|]. cbn [list_prod]. rewrite Rsum_app, Rsum_cons, IH, Rsum_map. reflexivity. Qed.
Lemma Rsum_delta (f : nat -> R) a s : (a < s)%nat -> Rsum (fun k => f k * delta a k) (seq 0 s) = f a.
Proof.
  intros H.
  assert (G : forall n b, Rsum (fun k => f k * delta a k) (seq b n) = if (Nat.leb b a && Nat.ltb a (b + n))%bool then f a else 0).
  { induction n as [|n IH]; intros b; cbn [seq].
    - rewrite Rsum_nil. replace (_ && _)%bool with false; auto. symmetry.
      destruct (Nat.leb_spec b a); cbn; auto. apply Nat.ltb_ge; lia.
    - rewrite Rsum_cons, IH. unfold delta. destruct (Nat.eqb_spec a b) as [->|N].
      + replace (_ && _)%bool with false by (symmetry; replace (Nat.leb (S b) b) with false; auto; symmetry; apply Nat.leb_gt; lia).
        rewrite Nat.leb_refl. replace (Nat.ltb _ _) with true by (symmetry; apply Nat.ltb_lt; lia). cbn. lra.
      + rewrite Rmult_0_r, Rplus_0_l. replace (b + S n)%nat with (S b + n)%nat by lia. 
        destruct (Nat.leb_spec b a), (Nat.leb_spec (S b) a); cbn; auto; lia. }
  rewrite G. cbn [plus]. replace (Nat.ltb a s) with true by (symmetry; now apply Nat.ltb_lt). reflexivity.
Qed.
Lemma Rsum_one_axis sh f a : forall G : idx -> R, (f < length sh)%nat -> (a < nth f sh O)%nat ->
  Rsum (fun n => G n * delta a (nth f n O)) (indices sh) = Rsum (fun n => G (upd_nth f a n)) (indices (upd_nth f 1%nat sh)).
Proof.
  revert f; induction sh as [|s sh IH]; intros f G H Ha; cbn in H; [lia|].
  destruct f as [|f]; cbn [nth upd_nth] in *.
  - rewrite !Rsum_indices_cons. cbn [seq]. rewrite Rsum_cons, Rsum_nil, Rplus_0_r. cbn [nth upd_nth].
    rewrite <- (Rsum_delta (fun k => Rsum (fun i => G (k :: i)) (indices sh)) a s Ha).
    apply Rsum_ext. intros k _. now rewrite Rsum_scal_r.
  - rewrite !Rsum_indices_cons. apply Rsum_ext. intros k _. cbn [nth].
    apply (IH f (fun i => G (k :: i))); auto. lia.
Qed.
(** coordinates of mapped axes within the sizes of their targets *)
Fixpoint inmap (m : amap) (x sn : list nat) : Prop :=
  match m, x with
  | Some f :: m', k :: x' => (k < nth f sn O)%nat /\ inmap m' x' sn
  | None :: m', _ :: x' => inmap m' x' sn
  | _, _ => True
  end.
Lemma inmap_in m sx sn x : Forall (fun f => f < length sn)%nat (targets m) -> In x (indices (msizes m sx sn)) -> inmap m x sn.
Proof.
  revert sx x; induction m as [|[f|] m IH]; intros [|s sx] x T H; cbn in *; auto.
  - destruct H as [<-|[]]; exact I.
  - destruct x as [|k x]; [exact I|]. apply TensorLemmas.in_cons in H as [Hk H]. inversion T; subst. rewrite (nth_indep sn 1%nat O) in Hk by auto. eauto.
  - destruct H as [<-|[]]; exact I.
  - destruct x as [|k x]; [exact I|]. apply TensorLemmas.in_cons in H as [Hk H]. eauto.
Qed.
Lemma deltas_upd m x nd f a : ~ In f (targets m) -> deltas m x (upd_nth f a nd) = deltas m x nd.
Proof.
  revert x; induction m as [|[g|] m IH]; intros [|k x] H; cbn in *; auto.
  rewrite nth_upd_neq by (intros ->; tauto). now rewrite IH by tauto.
Qed.
Lemma inmap_upd m x sn f a : ~ In f (targets m) -> inmap m x sn -> inmap m x (upd_nth f a sn).
Proof.
  revert x; induction m as [|[g|] m IH]; intros [|k x] H I; cbn in *; auto.
  rewrite nth_upd_neq by (intros ->; tauto). split; [apply I|apply IH; tauto].
Qed.
(** summing against the deltas of a map pins the mapped coordinates *)
Lemma Rsum_deltas m : forall x sx sn (F : idx -> R), length x = length sx -> single_at m sx -> NoDup (targets m) ->
  Forall (fun f => f < length sn)%nat (targets m) -> inmap m x sn ->
  Rsum (fun n => F n * deltas m x n) (indices sn) = Rsum (fun n => F (gn_ m x n)) (indices (gn_ m sx sn)).
Proof.
  induction m as [|[f|] m IH]; intros x sx sn F L S ND T I; destruct x as [|k x]; destruct sx as [|s sx]; try discriminate; cbn [deltas gn_];
    try (apply Rsum_ext; intros; ring).
  - apply NoDup_targets in ND as [Nf ND]. inversion T; subst. destruct S as [-> S]. destruct I as [Hk I].
    rewrite (Rsum_ext _ (fun n => (F n * deltas m x n) * delta k (nth f n O))) by (intros; ring).
    rewrite Rsum_one_axis by auto.
    rewrite (Rsum_ext _ (fun n => F (upd_nth f k n) * deltas m x n)) by (intros; now rewrite deltas_upd).
    rewrite (IH x sx (upd_nth f 1%nat sn) (fun n => F (upd_nth f k n))).
    + rewrite gn_upd by auto. apply Rsum_ext. intros n _. reflexivity.
    + cbn in L; lia.
    + auto.
    + auto.
    + rewrite upd_nth_length; auto.
    + now apply inmap_upd.
  - apply IH; auto.
Qed.

(** *** The two swapping loops *)
Lemma mem_seq f n : (f < n)%nat -> mem f (seq 0 n) = true.
Proof. intros H. unfold mem. apply existsb_exists. exists f. split; [apply in_seq; lia|apply Nat.eqb_refl]. Qed.
Lemma sum_swap_x_eq m : forall k p n arr, Forall (fun f => f < n)%nat (targets m) ->
  sum_swap_x k p (seq 0 n) arr m = arr_swapaxes_from k arr 0 p m.
Proof.
  induction m as [|[f|] m IH]; intros k p n arr T; cbn [sum_swap_x arr_swapaxes_from targets plus] in *; auto.
  inversion T; subst. rewrite mem_seq by auto. destruct (np_swapaxes arr k (p + f)); cbn [rbind]; auto.
Qed.
(** the y map without the axes that share their feature with an x axis *)
Definition ymf (mx : amap) (my : amap) : amap :=
  map (fun o => match o with Some f => match find_map (Some f) 0 mx with Some _ => None | None => Some f end | None => None end) my.
Fixpoint crosses (k : nat) (mx my : amap) : list (nat * nat) :=
  match my with
  | [] => []
  | Some f :: r => match find_map (Some f) 0 mx with Some l => (l, k) :: crosses (S k) mx r | None => crosses (S k) mx r end
  | None :: r => crosses (S k) mx r
  end.
Lemma sum_swap_y_eq m : forall k x p n mx c arr, Forall (fun f => f < n)%nat (targets m) ->
  sum_swap_y k x p (seq 0 n) mx c arr m = rmap (fun a => (a, c ++ crosses k mx m)) (arr_swapaxes_from k arr x p (ymf mx m)).
Proof.
  induction m as [|[f|] m IH]; intros k x p n mx c arr T; cbn [sum_swap_y targets ymf map crosses] in *.
  - cbn. now rewrite app_nil_r.
  - inversion T; subst. rewrite mem_seq by auto. cbn [negb]. destruct (find_map (Some f) 0 mx) as [l|] eqn:E.
    + rewrite IH by auto. cbn [arr_swapaxes_from]. fold (ymf mx m). now rewrite <- app_assoc.
    + cbn [arr_swapaxes_from]. fold (ymf mx m). destruct (np_swapaxes arr (x + k) (p + f)); cbn [rbind rmap]; auto.
  - rewrite IH by auto. reflexivity.
Qed.
Lemma find_map_In f mx l : find_map (Some f) l mx = None <-> ~ In f (targets mx).
Proof.
  revert l; induction mx as [|[g|] mx IH]; intros l; cbn [find_map oeqb targets].
  - cbn. tauto.
  - destruct (Nat.eqb_spec g f) as [->|N]; cbn; [split; [discriminate|intros H; exfalso; tauto]|]. rewrite IH. split; tauto.
  - apply IH.
Qed.
Lemma find_map_nth f mx : forall b l, find_map (Some f) b mx = Some l -> (b <= l)%nat /\ nth_error mx (l - b) = Some (Some f).
Proof.
  induction mx as [|g mx IH]; intros b l H; cbn [find_map] in H; [discriminate|].
  destruct (oeqb g (Some f)) eqn:E.
  - injection H as <-. rewrite Nat.sub_diag. destruct g as [g|]; cbn in E; [|discriminate]. apply Nat.eqb_eq in E as ->. auto.
  - apply IH in H as [H1 H2]. split; [lia|]. replace (l - b)%nat with (S (l - S b)) by lia. exact H2.
Qed.
Lemma targets_ymf mx my : targets (ymf mx my) = filter (fun f => match find_map (Some f) 0 mx with Some _ => false | None => true end) (targets my).
Proof.
  induction my as [|[f|] my IH]; cbn [ymf map targets filter]; auto.
  destruct (find_map (Some f) 0 mx); cbn [targets]; fold (ymf mx my); rewrite IH; auto.
Qed.
Lemma NoDup_filter' {A} (p : A -> bool) l : NoDup l -> NoDup (filter p l).
Proof. induction 1; cbn; [constructor|]. destruct (p x); auto. constructor; auto. rewrite filter_In. tauto. Qed.
Lemma ymf_disjoint mx my f : In f (targets (ymf mx my)) -> ~ In f (targets mx).
Proof. rewrite targets_ymf, filter_In. intros [_ H]. apply (find_map_In f mx 0). destruct (find_map (Some f) 0 mx); [discriminate|auto]. Qed.
Lemma single_ymf mx my sy : single_at my sy -> single_at (ymf mx my) sy.
Proof.
  revert sy; induction my as [|[f|] my IH]; intros [|s sy] H; cbn [single_at ymf map] in *; auto.
  - destruct H.
  - destruct H as [? H]. destruct (find_map (Some f) 0 mx); cbn [single_at]; [|split; auto]; apply IH; auto.
Qed.
Lemma Forall_ymf (P : nat -> Prop) mx my : Forall P (targets my) -> Forall P (targets (ymf mx my)).
Proof. rewrite targets_ymf, !Forall_forall. intros H f Hf. apply filter_In in Hf as [Hf _]. auto. Qed.

(** deltas between a y axis and the x axis of the same feature *)
Fixpoint xdeltas (mx my : amap) (y x : idx) : R :=
  match my, y with
  | Some f :: m', k :: y' =>
      match find_map (Some f) 0 mx with Some l => delta k (nth l x O) | None => 1 end * xdeltas mx m' y' x
  | None :: m', _ :: y' => xdeltas mx m' y' x
  | _, _ => 1
  end.
Fixpoint cstored (mx my : amap) (y : idx) : idx :=
  match my, y with
  | Some f :: m', k :: y' =>
      match find_map (Some f) 0 mx with Some l => O | None => k end :: cstored mx m' y'
  | None :: m', k :: y' => k :: cstored mx m' y'
  | _, _ => y
  end.
Fixpoint csizes (mx my : amap) (sy X : list nat) : list nat :=
  match my, sy with
  | Some f :: m', s :: y' =>
      match find_map (Some f) 0 mx with Some l => nth l X O | None => s end :: csizes mx m' y' X
  | None :: m', s :: y' => s :: csizes mx m' y' X
  | _, _ => sy
  end.
Lemma nth_gn_in mx : forall x n f l, NoDup (targets mx) -> find_map (Some f) 0 mx = Some l -> (length mx <= length x)%nat -> (f < length n)%nat ->
  nth f (gn_ mx x n) O = nth l x O.
Proof.
  intros x n f l ND H L Hf. apply find_map_nth in H as [_ H]. rewrite Nat.sub_0_r in H.
  revert x l H L; induction mx as [|[g|] mx IH]; intros x l H L; [destruct l; discriminate| |].
  - destruct x as [|k x]; [cbn in L; lia|]. cbn [gn_]. apply NoDup_targets in ND as [Ng ND]. destruct l as [|l]; cbn [nth_error nth] in *.
    + injection H as ->. apply nth_upd_eq. now rewrite gn_length.
    + rewrite nth_upd_neq.
      * apply IH; auto. cbn in L; lia.
      * intros ->. apply Ng. apply nth_error_In in H. clear -H. induction mx as [|[g|] mx IH]; cbn in *; [tauto| |].
        -- destruct H as [H|H]; [injection H as ->; auto|auto].
        -- destruct H as [H|H]; [discriminate|auto].
  - destruct x as [|k x]; [cbn in L; lia|]. cbn [gn_ targets] in *. destruct l as [|l]; cbn [nth_error nth] in *; [discriminate|].
    apply IH; auto. cbn in L; lia.
Qed.
Lemma deltas_split mx my : forall y x n, NoDup (targets mx) -> (length mx <= length x)%nat -> Forall (fun f => f < length n)%nat (targets my) ->
  deltas my y (gn_ mx x n) = deltas (ymf mx my) y n * xdeltas mx my y x.
Proof.
  induction my as [|[f|] my IH]; intros y x n ND L T; [destruct y; cbn; ring| |].
  - destruct y as [|k y]; [cbn; destruct (find_map (Some f) 0 mx); cbn; ring|].
    cbn [deltas ymf map xdeltas targets] in *; fold (ymf mx my) in *.
    inversion T; subst. rewrite IH by auto. destruct (find_map (Some f) 0 mx) as [l|] eqn:E; cbn [deltas].
    + rewrite (nth_gn_in mx x n f l) by auto. ring.
    + rewrite nth_gn by (now apply (find_map_In f mx 0)). ring.
  - destruct y as [|k y]; [cbn; ring|]. cbn [deltas ymf map xdeltas targets] in *; fold (ymf mx my) in *. apply IH; auto.
Qed.

(** *** A general eye factor *)
Lemma clamp_upd s i a n : nth a s O = 1%nat -> (a < length s)%nat -> In i (indices (upd_nth a n s)) -> clamp s i = upd_nth a O i.
Proof.
  revert a i; induction s as [|h s IH]; intros [|a] i H L Hi; cbn [length nth upd_nth] in *; try lia.
  - subst h. destruct i as [|k i]; [now apply indices_length in Hi|]. apply TensorLemmas.in_cons in Hi as [_ Hi]. cbn. now rewrite clamp_in.
  - destruct i as [|k i]; [now apply indices_length in Hi|]. apply TensorLemmas.in_cons in Hi as [Hk Hi]. cbn [clamp upd_nth]. rewrite clampi_lt by auto.
    f_equal. apply IH; auto; lia.
Qed.
Lemma nth_ones_at r a b n j : (j < r)%nat -> (a < r)%nat -> (b < r)%nat -> nth j (ones_at r a b n) O = if Nat.eqb j a || Nat.eqb j b then n else 1%nat.
Proof.
  intros H Ha Hb. unfold ones_at. destruct (Nat.eqb_spec j b) as [->|N].
  - rewrite orb_true_r. apply nth_upd_eq. rewrite upd_nth_length, repeat_length; auto.
  - rewrite orb_false_r, nth_upd_neq by auto. destruct (Nat.eqb_spec j a) as [->|N'].
    + apply nth_upd_eq. now rewrite repeat_length.
    + rewrite nth_upd_neq by auto. revert j H Ha Hb N N'. clear. intros j H _ _ _ _. revert r H. induction j; intros [|r] H; cbn; try lia; auto. apply IHj; lia.
Qed.
Lemma ones_at_length r a b n : length (ones_at r a b n) = r.
Proof. unfold ones_at. now rewrite !upd_nth_length, repeat_length. Qed.
Lemma Forall2_nth_intro (P : nat -> nat -> Prop) l l' : length l = length l' -> (forall j, (j < length l)%nat -> P (nth j l O) (nth j l' O)) -> Forall2 P l l'.
Proof.
  revert l'; induction l as [|h l IH]; intros [|h' l'] L H; cbn in *; try discriminate; constructor.
  - apply (H O). lia.
  - apply IH; [lia|]. intros j Hj. apply (H (S j)). lia.
Qed.
Lemma nth_bmax a b j : length a = length b -> nth j (bmax a b) O = Nat.max (nth j a O) (nth j b O).
Proof. revert b j; induction a; intros [|h b] j L; cbn in *; try discriminate; [destruct j; auto|]. destruct j; auto. Qed.
Lemma eye_factor arr e a b n r : shp e = ones_at r a b n -> r = ndim arr -> a <> b -> (a < r)%nat -> (b < r)%nat ->
  (forall i, length i = r -> el e i = delta (nth a i O) (nth b i O)) ->
  nth a (shp arr) O = 1%nat -> nth b (shp arr) O = n -> posl (shp arr) ->
  exists v, np_bin Rmult arr e = Ok v /\ shp v = upd_nth a n (shp arr) /\
    forall i, In i (indices (shp v)) -> el v i = el arr (upd_nth a O i) * delta (nth a i O) (nth b i O).
Proof.
  intros Se -> Nab Ha Hb Ve Na Nb P. unfold ndim in *.
  assert (Hn : (1 <= n)%nat) by (subst n; eapply Forall_forall in P; [exact P|now apply nth_In]).
  destruct (np_bin_ok Rmult arr e) as (v & E & S & V).
  - rewrite Se. apply Forall2_nth_intro; [now rewrite ones_at_length|]. intros j Hj. rewrite nth_ones_at by auto. unfold bcompat.
    destruct (Nat.eqb_spec j a) as [->|]; [cbn; auto|]. destruct (Nat.eqb_spec j b) as [->|]; cbn; auto.
  - auto.
  - rewrite Se. apply Forall_forall. intros z Hz. apply (In_nth _ _ O) in Hz as (j & Hj & <-). rewrite ones_at_length in Hj.
    rewrite nth_ones_at by auto. destruct (_ || _); lia.
  - exists v. split; [exact E|].
    assert (S' : shp v = upd_nth a n (shp arr)).
    { rewrite S, Se. apply list_eq_nth; [rewrite bmax_length, ones_at_length, upd_nth_length; auto; now rewrite ones_at_length|].
      rewrite bmax_length, ones_at_length by (now rewrite ones_at_length). intros j Hj. rewrite nth_bmax by (now rewrite ones_at_length).
      rewrite nth_ones_at by auto. destruct (Nat.eqb_spec j a) as [->|N1].
      - cbn [orb]. rewrite nth_upd_eq by auto. lia.
      - rewrite nth_upd_neq by auto. cbn [orb]. destruct (Nat.eqb_spec j b) as [->|N2]; [lia|].
        assert (1 <= nth j (shp arr) O)%nat by (eapply Forall_forall in P; [exact P|now apply nth_In]). lia. }
    split; [exact S'|]. intros i Hi. rewrite S' in Hi. pose proof (indices_length _ _ Hi) as Li. rewrite upd_nth_length in Li.
    rewrite V by auto. rewrite (clamp_upd (shp arr) i a n) by auto. f_equal.
    assert (Hia : (nth a i O < n)%nat).
    { pose proof (in_nth _ _ a Hi) as H. rewrite upd_nth_length, nth_upd_eq in H by auto. auto. }
    assert (Hib : (nth b i O < n)%nat).
    { pose proof (in_nth _ _ b Hi) as H. rewrite upd_nth_length, nth_upd_neq in H by auto. rewrite <- Nb. auto. }
    rewrite Ve by (rewrite Se, clamp_length, ones_at_length; lia). rewrite Se.
    rewrite !nth_clamp by (rewrite ?ones_at_length; auto). rewrite !nth_ones_at by auto.
    rewrite !Nat.eqb_refl, orb_true_r. cbn [orb]. now rewrite !clampi_lt by auto.
Qed.
(** np.eye(n)[idx] with slices at a < b *)
Lemma seq_split3 r a b : (a < b)%nat -> (b < r)%nat -> seq 0 r = seq 0 a ++ a :: seq (S a) (b - a - 1) ++ b :: seq (S b) (r - b - 1).
Proof.
  intros H1 H2. replace r with (a + S ((b - a - 1) + S (r - b - 1)))%nat at 1 by lia.
  rewrite seq_app. f_equal. cbn [seq plus]. f_equal. rewrite seq_app. f_equal. cbn [seq]. replace (S a + (b - a - 1))%nat with b by lia. reflexivity.
Qed.
Lemma index_eye n r a b : (a < b)%nat -> (b < r)%nat ->
  exists e, np_index (map (fun j => if Nat.eqb j a || Nat.eqb j b then Sl else Nw) (seq 0 r)) (np_eye n) = Ok e /\
    shp e = ones_at r a b n /\ forall i, length i = r -> el e i = delta (nth a i O) (nth b i O).
Proof.
  intros H1 H2.
  assert (E : map (fun j => if Nat.eqb j a || Nat.eqb j b then Sl else Nw) (seq 0 r) =
              repeat Nw a ++ Sl :: repeat Nw (b - a - 1) ++ Sl :: repeat Nw (r - b - 1)).
  { assert (K : forall s m, (forall j, (s <= j < s + m)%nat -> j <> a /\ j <> b) ->
       map (fun j => if Nat.eqb j a || Nat.eqb j b then Sl else Nw) (seq s m) = repeat Nw m).
    { intros s m; revert s; induction m as [|m IH]; intros s H; cbn [seq map repeat]; auto.
      destruct (H s) as [? ?]; [lia|]. destruct (Nat.eqb_spec s a), (Nat.eqb_spec s b); try lia. cbn. f_equal. apply IH. intros; apply H; lia. }
    rewrite (seq_split3 r a b) by auto. rewrite map_app. cbn [map]. rewrite map_app. cbn [map]. rewrite !K by (intros; lia).
    rewrite !Nat.eqb_refl, orb_true_r. reflexivity. }
  rewrite E. rewrite np_index_ok.
  2:{ apply nodots_app; [apply nodots_nw|]. constructor; [discriminate|]. apply nodots_app; [apply nodots_nw|]. constructor; [discriminate|apply nodots_nw]. }
  2:{ rewrite count_sl_app, count_sl_nw. cbn [count_sl]. rewrite count_sl_app, count_sl_nw. cbn [count_sl]. rewrite count_sl_nw. reflexivity. }
  eexists; split; [reflexivity|]. cbn [shp el np_eye]. split.
  - rewrite ishape_nw. cbn [ishape]. rewrite ishape_nw. cbn [ishape].
    rewrite ishape_nw_end. unfold ones_at.
    assert (R : repeat 1%nat r = repeat 1%nat a ++ 1%nat :: repeat 1%nat (b - a - 1) ++ 1%nat :: repeat 1%nat (r - b - 1)).
    { replace r with (a + S ((b - a - 1) + S (r - b - 1)))%nat at 1 by lia. rewrite repeat_app. cbn [repeat]. rewrite repeat_app. reflexivity. }
    rewrite R.
    replace (upd_nth a n (repeat 1%nat a ++ 1%nat :: repeat 1%nat (b - a - 1) ++ 1%nat :: repeat 1%nat (r - b - 1)))
      with (repeat 1%nat a ++ n :: repeat 1%nat (b - a - 1) ++ 1%nat :: repeat 1%nat (r - b - 1)).
    2:{ transitivity (upd_nth (a + 0) n (repeat 1%nat a ++ 1%nat :: repeat 1%nat (b - a - 1) ++ 1%nat :: repeat 1%nat (r - b - 1))).
        - now rewrite upd_app2' by apply repeat_length.
        - now rewrite Nat.add_0_r. }
    replace b with (a + S ((b - a - 1) + 0))%nat at 3 by lia. rewrite upd_app2' by apply repeat_length. cbn [upd_nth].
    now rewrite upd_app2' by apply repeat_length.
  - intros i Hi.
    destruct (NDProofs.split_nth a i O) as (u & v & Ei & Lu & _); [lia|].
    assert (Lv : length v = (r - a - 1)%nat) by (rewrite Ei, app_length in Hi; cbn in Hi; lia).
    destruct (NDProofs.split_nth (b - a - 1) v O) as (u' & v' & Ev & Lu' & _); [lia|].
    assert (Hb : nth b i O = nth (b - a - 1) v O).
    { rewrite Ei at 1. rewrite app_nth2 by lia. replace (b - length u)%nat with (S (b - a - 1)) by lia. reflexivity. }
    rewrite Hb. rewrite Ei at 1 2. rewrite !iidx_nw by auto. cbn [iidx nth]. f_equal. rewrite Ev at 1. now rewrite iidx_nw by auto.
Qed.

Lemma cstored_in mx my : forall sy X y, single_at my sy -> posl sy ->
  In y (indices (csizes mx my sy X)) -> In (cstored mx my y) (indices sy).
Proof.
  induction my as [|[f|] my IH]; intros sy X y Sg P' Hy; cbn [csizes cstored] in *; auto; destruct sy as [|s sy]; try (now destruct Sg).
  - destruct y as [|a y]; [now apply indices_length in Hy|]. apply TensorLemmas.in_cons in Hy as [Ha Hy]. destruct Sg as [-> Sg]. inversion P'; subst.
    apply TensorLemmas.in_cons. split; [destruct (find_map (Some f) 0 mx); lia|]. eapply IH; eauto.
  - destruct y as [|a y]; [now apply indices_length in Hy|]. apply TensorLemmas.in_cons in Hy as [Ha Hy]. inversion P'; subst.
    apply TensorLemmas.in_cons. split; [auto|]. eapply IH; eauto.
Qed.
(** lines 527-532 *)
Lemma sum_cross_ok mx my : forall k arr X pre sy D,
  shp arr = X ++ pre ++ sy ++ D -> k = length pre -> single_at my sy -> posl (shp arr) -> (length mx <= length X)%nat ->
  exists r, sum_cross (length X) arr (crosses k mx my) = Ok r /\ shp r = X ++ pre ++ csizes mx my sy X ++ D /\ posl (shp r) /\
    forall x yp y d, In x (indices X) -> In yp (indices pre) -> In y (indices (csizes mx my sy X)) -> In d (indices D) ->
      el r (x ++ yp ++ y ++ d) = el arr (x ++ yp ++ cstored mx my y ++ d) * xdeltas mx my y x.
Proof.
  unfold sum_cross.
  induction my as [|[f|] my IH]; intros k arr X pre sy D E Ek Sg P L; cbn [crosses].
  - exists arr. cbn [ofold]. repeat split; auto. intros. cbn. ring.
  - destruct sy as [|s sy]; [destruct Sg|]. cbn [single_at] in Sg. destruct Sg as [-> Sg].
    destruct (find_map (Some f) 0 mx) as [l|] eqn:F.
    + cbn [ofold].
      assert (Hl : (l < length X)%nat).
      { apply find_map_nth in F as [_ F]. rewrite Nat.sub_0_r in F. assert (H : nth_error mx l <> None) by congruence. apply nth_error_Some in H. lia. }
      assert (LE : length (shp arr) = (length X + (length pre + S (length sy + length D)))%nat).
      { rewrite E, !app_length. cbn [length app]. rewrite ?app_length. lia. }
      replace (_ && _) with true by (symmetry; apply andb_true_intro; unfold ndim; rewrite LE; split; apply Nat.ltb_lt; lia).
      set (n := nth l (shp arr) O).
      assert (Hn : n = nth l X O) by (subst n; rewrite E, app_nth1 by auto; auto).
      destruct (index_eye n (ndim arr) l (length X + k)) as (e & Ee & Se & Ve); [lia|unfold ndim; lia|].
      rewrite Ee. cbn [rbind].
      assert (SP : shp arr = (X ++ pre) ++ 1%nat :: sy ++ D) by (rewrite E, <- !app_assoc; reflexivity).
      assert (LXk : (length X + k = length (X ++ pre) + 0)%nat) by (rewrite app_length; lia).
      destruct (eye_factor arr e (length X + k) l n (ndim arr)) as (v & Ev & Sv & Vv).
      { rewrite Se. unfold ones_at. apply upd_comm. lia. }
      { reflexivity. } { lia. } { unfold ndim; lia. } { unfold ndim; lia. }
      { intros i Hi. rewrite Ve by auto. unfold delta. rewrite Nat.eqb_sym. reflexivity. }
      { rewrite SP, LXk, app_nth2 by lia. rewrite Nat.add_0_r, Nat.sub_diag. reflexivity. }
      { reflexivity. } { auto. }
      rewrite Ev. cbn [rbind].
      rewrite SP, LXk, upd_app2 in Sv. cbn [upd_nth] in Sv.
      destruct (IH (S k) v X (pre ++ [n]) sy D) as (r & Er & Sr & Pr & Vr).
      { rewrite Sv, <- !app_assoc. reflexivity. } { rewrite app_length; cbn; lia. } { auto. }
      { rewrite Sv. rewrite SP in P. apply pos_app in P as [P1 P2]. inversion P2; subst. apply pos_app. split; auto. constructor; auto.
        rewrite Hn. apply pos_app in P1 as [P1 _]. eapply Forall_forall in P1; [exact P1|now apply nth_In]. }
      { auto. }
      exists r. split; [exact Er|]. cbn [csizes]. rewrite F. rewrite <- Hn. split; [rewrite Sr, <- !app_assoc; reflexivity|]. split; [auto|].
      intros x yp y d Hx Hp Hy Hd. destruct y as [|a y]; [now apply indices_length in Hy|]. apply TensorLemmas.in_cons in Hy as [Ha Hy].
      specialize (Vr x (yp ++ [a]) y d). rewrite <- !app_assoc in Vr. cbn [app] in Vr. cbn [app cstored xdeltas]. rewrite F.
      rewrite Vr; auto.
      2:{ apply in_indices_app2; auto. apply TensorLemmas.in_cons; cbn; auto. }
      rewrite Vv.
      2:{ rewrite Sv, <- app_assoc. apply in_indices_app2; auto. apply in_indices_app2; auto. apply TensorLemmas.in_cons. split; auto. apply in_indices_app2; auto.
          apply (cstored_in mx my sy X); auto. rewrite E in P. apply pos_app in P as [_ P]. apply pos_app in P as [_ P].
          apply pos_app in P as [P _]. now inversion P. }
      pose proof (indices_length _ _ Hx) as Lx. pose proof (indices_length _ _ Hp) as Lp.
      replace (nth (length X + k) (x ++ yp ++ a :: cstored mx my y ++ d) O) with a.
      2:{ rewrite app_assoc, app_nth2 by (rewrite app_length; lia). rewrite app_length. replace (_ - _)%nat with O by lia. reflexivity. }
      replace (nth l (x ++ yp ++ a :: cstored mx my y ++ d) O) with (nth l x O) by (rewrite app_nth1 by lia; reflexivity).
      replace (upd_nth (length X + k) O (x ++ yp ++ a :: cstored mx my y ++ d)) with (x ++ yp ++ O :: cstored mx my y ++ d).
      2:{ rewrite (app_assoc x yp (a :: _)). replace (length X + k)%nat with (length (x ++ yp) + 0)%nat by (rewrite app_length; lia).
          rewrite upd_app2. cbn [upd_nth]. now rewrite <- app_assoc. }
      ring.
    + destruct (IH (S k) arr X (pre ++ [1%nat]) sy D) as (r & Er & Sr & Pr & Vr); auto.
      { rewrite E, <- !app_assoc. reflexivity. } { rewrite app_length; cbn; lia. }
      exists r. split; [exact Er|]. cbn [csizes]. rewrite F. split; [rewrite Sr, <- !app_assoc; reflexivity|]. split; [auto|].
      intros x yp y d Hx Hp Hy Hd. destruct y as [|a y]; [now apply indices_length in Hy|]. apply TensorLemmas.in_cons in Hy as [Ha Hy].
      specialize (Vr x (yp ++ [a]) y d). rewrite <- !app_assoc in Vr. cbn [app] in Vr. cbn [app cstored xdeltas]. rewrite F.
      rewrite Vr; auto; [ring|]. apply in_indices_app2; auto. apply TensorLemmas.in_cons; cbn; auto.
  - destruct sy as [|s sy]; [destruct Sg|]. cbn [single_at] in Sg.
    destruct (IH (S k) arr X (pre ++ [s]) sy D) as (r & Er & Sr & Pr & Vr); auto.
    { rewrite E, <- !app_assoc. reflexivity. } { rewrite app_length; cbn; lia. }
    exists r. split; [exact Er|]. cbn [csizes]. split; [rewrite Sr, <- !app_assoc; reflexivity|]. split; [auto|].
    intros x yp y d Hx Hp Hy Hd. destruct y as [|a y]; [now apply indices_length in Hy|]. apply TensorLemmas.in_cons in Hy as [Ha Hy].
    specialize (Vr x (yp ++ [a]) y d). rewrite <- !app_assoc in Vr. cbn [app] in Vr. cbn [app cstored xdeltas].
    apply Vr; auto. apply in_indices_app2; auto. apply TensorLemmas.in_cons; cbn; auto.
Qed.
