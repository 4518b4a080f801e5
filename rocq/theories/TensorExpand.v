(** Tensor.expand *)
From Verif Require Import Prelude DenseModel AnalyticSpec DenseProofs NDArray NDProofs TensorModel TensorSpec TensorLemmas TensorBasic TensorSum TensorSumMain TensorShape.
From Coq Require Import Reals Lra Sorted Permutation.
Import List ListNotations.
Open Scope R_scope.

(** *** argsort *)
Lemma ins_pos_perm l k r : Permutation (k :: r) (ins_pos l k r).
Proof.
  induction r as [|h r IH]; cbn [ins_pos]; auto. destruct (Nat.leb _ _); auto.
  eapply perm_trans; [apply perm_swap|]. now constructor.
Qed.
Lemma argsort_permut l : permut (length l) (argsort l).
Proof.
  unfold permut, argsort. induction (seq 0 (length l)) as [|k r IH]; cbn [fold_right]; auto.
  eapply perm_trans; [|apply ins_pos_perm]. now constructor.
Qed.
Definition byval (l : list nat) (a b : nat) : Prop := (nth a l O <= nth b l O)%nat.
Lemma ins_pos_sorted l k r : StronglySorted (byval l) r -> StronglySorted (byval l) (ins_pos l k r).
Proof.
  induction 1 as [|h r Hs IH F]; cbn [ins_pos]; [repeat constructor|].
  destruct (Nat.leb_spec (nth k l O) (nth h l O)) as [L|L].
  - constructor; [now constructor|]. constructor; [exact L|]. eapply Forall_impl; [|exact F]. unfold byval. intros; lia.
  - constructor; auto. apply Forall_forall. intros x Hx. apply Permutation_in with (l' := k :: r) in Hx; [|apply Permutation_sym, ins_pos_perm].
    destruct Hx as [<-|Hx]; [unfold byval; lia|]. rewrite Forall_forall in F. auto.
Qed.
Lemma argsort_sorted l : StronglySorted (byval l) (argsort l).
Proof. unfold argsort. induction (seq 0 (length l)); cbn [fold_right]; [constructor|now apply ins_pos_sorted]. Qed.

Lemma lt_sorted_unique (l l' : list nat) : StronglySorted lt l -> StronglySorted lt l' -> (forall x, In x l <-> In x l') -> l = l'.
Proof.
  intros S; revert l'; induction S as [|h l S IH F]; intros l' S' H.
  - destruct l' as [|h' l']; auto. exfalso. apply (H h'). now left.
  - destruct S' as [|h' l' S' F']; [exfalso; apply (H h); now left|].
    rewrite Forall_forall in F, F'.
    assert (h = h').
    { assert (A : In h (h' :: l')) by (apply H; now left). assert (B : In h' (h :: l)) by (apply H; now left).
      destruct A as [A|A]; auto. destruct B as [B|B]; auto. apply F' in A. apply F in B. lia. }
    subst h'. f_equal. apply IH; auto. intros x. split; intros Hx.
    + assert (A : In x (h :: l')) by (apply H; now right). destruct A as [<-|A]; auto. apply F in Hx. lia.
    + assert (A : In x (h :: l)) by (apply H; now right). destruct A as [<-|A]; auto. apply F' in Hx. lia.
Qed.
Lemma seq_sorted s n : StronglySorted lt (seq s n).
Proof. revert s; induction n; intros s; cbn [seq]; constructor; auto. apply Forall_forall. intros x Hx. apply in_seq in Hx. lia. Qed.
Lemma filter_sorted {A} (R : A -> A -> Prop) p l : StronglySorted R l -> StronglySorted R (filter p l).
Proof.
  induction 1 as [|h l S IH F]; cbn [filter]; [constructor|]. destruct (p h); auto. constructor; auto.
  apply Forall_forall. intros x Hx. apply filter_In in Hx as [Hx _]. rewrite Forall_forall in F. auto.
Qed.
Lemma map_sorted w s : NoDup w -> NoDup s -> Forall (fun j => j < length w)%nat s -> StronglySorted (byval w) s -> StronglySorted lt (map (fun j => nth j w O) s).
Proof.
  intros Nw Ns T S. induction S as [|h l S IH F]; cbn [map]; [constructor|]. inversion Ns; subst. inversion T; subst. constructor; auto.
  apply Forall_forall. intros x Hx. apply in_map_iff in Hx as (j & <- & Hj). rewrite Forall_forall in F. pose proof (F j Hj) as L. unfold byval in L.
  destruct (Nat.eq_dec (nth h w O) (nth j w O)) as [E|]; [|lia]. exfalso. apply H1.
  apply NoDup_nth with (d := O) (l := w) in E; auto. - now subst. - rewrite Forall_forall in H4. auto.
Qed.
Lemma mem_In k l : mem k l = true <-> In k l.
Proof. unfold mem. rewrite existsb_exists. split; [intros (x & H & E); apply Nat.eqb_eq in E as ->; auto|intros H; exists k; split; auto; apply Nat.eqb_refl]. Qed.
Lemma argsort_filter w m : NoDup w -> Forall (fun k => k < m)%nat w ->
  map (fun j => nth j w O) (argsort w) = filter (fun k => mem k w) (seq 0 m).
Proof.
  intros Nw T. pose proof (argsort_permut w) as P. apply lt_sorted_unique.
  - apply map_sorted; auto.
    + eapply Permutation_NoDup; [exact P|apply seq_NoDup].
    + apply Forall_forall. intros x Hx. now apply (permut_In _ _ _ P).
    + apply argsort_sorted.
  - apply filter_sorted, seq_sorted.
  - intros x. rewrite in_map_iff, filter_In, mem_In, in_seq. split.
    + intros (j & <- & Hj). apply (permut_In _ _ _ P) in Hj. assert (In (nth j w O) w) by (now apply nth_In). split; auto.
      rewrite Forall_forall in T. specialize (T _ H). lia.
    + intros [_ H]. apply (In_nth _ _ O) in H as (j & Hj & E). exists j. split; auto. now apply (permut_In _ _ _ P).
Qed.

(** *** inserting the missing axes *)
Lemma ishape_tsel w (g : nat -> nat) l r sh : ishape (map (fun k => tsel k w) l ++ r) (map g (filter (fun k => mem k w) l) ++ sh) =
  map (fun k => if mem k w then g k else 1%nat) l ++ ishape r sh.
Proof.
  induction l as [|k l IH]; cbn [map app filter]; auto. unfold tsel at 1. destruct (mem k w); cbn [ishape map app]; now rewrite IH.
Qed.
Lemma iidx_tsel w l r i j : length i = length l -> iidx (map (fun k => tsel k w) l ++ r) (i ++ j) =
  map snd (filter (fun p => mem (fst p) w) (combine l i)) ++ iidx r j.
Proof.
  revert i; induction l as [|k l IH]; intros [|a i] L; try discriminate; cbn [map app combine filter fst]; auto.
  unfold tsel at 1. destruct (mem k w); cbn [iidx map app snd]; now rewrite IH by (cbn in L; lia).
Qed.
Lemma combine_seq_filter w s (i : idx) : map snd (filter (fun p => mem (fst p) w) (combine (seq s (length i)) i)) =
  map (fun k => nth (k - s) i O) (filter (fun k => mem k w) (seq s (length i))).
Proof.
  revert s; induction i as [|a i IH]; intros s; cbn [length seq combine filter map fst]; auto.
  assert (E : map (fun k => nth (k - S s) i O) (filter (fun k => mem k w) (seq (S s) (length i))) =
              map (fun k => nth (k - s) (a :: i) O) (filter (fun k => mem k w) (seq (S s) (length i)))).
  { apply map_ext_in. intros k Hk. apply filter_In in Hk as [Hk _]. apply in_seq in Hk. replace (k - s)%nat with (S (k - S s)) by lia. reflexivity. }
  destruct (mem s w); cbn [map snd]; rewrite IH, E; auto. now rewrite Nat.sub_diag.
Qed.
Lemma count_tsel w l : count_sl (map (fun k => tsel k w) l) = length (filter (fun k => mem k w) l).
Proof. induction l as [|k l IH]; cbn [map filter]; auto. unfold tsel at 1. destruct (mem k w); cbn [count_sl length]; auto. Qed.
Lemma nodots_tsel w l : nodots (map (fun k => tsel k w) l).
Proof. unfold nodots. apply Forall_forall. intros s Hs. apply in_map_iff in Hs as (k & <- & _). unfold tsel. destruct (mem k w); discriminate. Qed.
Lemma index_of_nth w j : NoDup w -> (j < length w)%nat -> index_of (nth j w O) w = Some j.
Proof.
  intros ND H. destruct (index_of_In (nth j w O) w) as (i & E & L & V); [now apply nth_In|]. rewrite E. f_equal.
  apply NoDup_nth with (d := O) (l := w) in V; auto.
Qed.
Lemma expand_shape_eq sh w m : NoDup w -> Forall (fun k => k < m)%nat w -> length sh = length w ->
  expand_shape sh w m = map (fun k => if mem k w then nth (match index_of k w with Some j => j | None => O end) sh O else 1%nat) (seq 0 m).
Proof.
  intros ND T L. unfold expand_shape. apply map_ext_in. intros k Hk. destruct (mem k w) eqn:E.
  - apply mem_In in E. destruct (index_of_In k w E) as (j & Ej & Lj & Vj). rewrite Ej. apply nth_indep. lia.
  - destruct (index_of k w) eqn:Ei; auto. exfalso.
    assert (In k w). { clear -Ei. revert n Ei. induction w as [|h w IH]; intros n Ei; [discriminate|]. cbn [index_of] in Ei.
      destruct (Nat.eqb_spec h k); [now left|]. destruct (index_of k w) eqn:Q; [|discriminate]. right. eapply IH; eauto. }
    apply mem_In in H. congruence.
Qed.
Lemma pull_length w i : length (pull w i) = length w. Proof. apply map_length. Qed.
Lemma unperm_argsort w i : NoDup w -> unperm (argsort w) (map (fun j => nth (nth j w O) i O) (argsort w)) = pull w i.
Proof.
  intros ND. pose proof (argsort_permut w) as P. unfold unperm, pull. rewrite (permut_length _ _ P).
  transitivity (map (fun f => nth f i O) (map (fun k => nth k w O) (seq 0 (length w)))).
  - rewrite map_map. apply map_ext_in. intros q Hq. apply in_seq in Hq.
    destruct (index_of_In q (argsort w)) as (j & E & L & V); [apply (permut_In _ _ _ P); lia|]. rewrite E.
    rewrite (nth_indep _ O (nth (nth O w O) i O)) by (rewrite map_length; auto). rewrite (map_nth (fun j => nth (nth j w O) i O)). now rewrite V.
  - now rewrite map_nth_seq0.
Qed.

(** the core: transpose by argsort and insert axes *)
Lemma expand_core v A N D w m : shp v = A ++ N ++ D -> NoDup w -> Forall (fun k => k < m)%nat w -> length N = length w ->
  exists r1 r, np_transpose v (seq 0 (length A) ++ map (fun k => length A + k)%nat (argsort w) ++ seq (length A + length N) (length D)) = Ok r1 /\
    np_index (repeat Sl (length A) ++ map (fun k => tsel k w) (seq 0 m) ++ repeat Sl (length D)) r1 = Ok r /\
    shp r = A ++ expand_shape N w m ++ D /\
    forall a n d, length a = length A -> length n = m -> length d = length D -> el r (a ++ n ++ d) = el v (a ++ pull w n ++ d).
Proof.
  intros E ND T L. pose proof (argsort_permut w) as P. rewrite <- L in P.
  destruct (np_transpose_block v A N D (argsort w) E P) as (r1 & E1 & S1 & V1).
  assert (S1' : map (fun q => nth q N O) (argsort w) = map (fun k => nth (match index_of k w with Some j => j | None => O end) N O) (filter (fun k => mem k w) (seq 0 m))).
  { rewrite <- argsort_filter by auto. rewrite map_map. apply map_ext_in. intros q Hq. apply (permut_In _ _ _ P) in Hq. rewrite index_of_nth; auto. lia. }
  exists r1. eexists. split; [exact E1|]. split.
  - apply np_index_ok.
    + apply nodots_app; [apply nodots_sl|]. apply nodots_app; [apply nodots_tsel|apply nodots_sl].
    + unfold ndim. rewrite S1, !count_sl_app, !count_sl_sl, count_tsel, !app_length, map_length, (permut_length _ _ P).
      rewrite <- argsort_filter by auto. rewrite map_length, (permut_length _ _ P). lia.
  - cbn [shp el]. split.
    + rewrite S1, ishape_sl, S1', ishape_tsel, ishape_sl_end by auto. rewrite expand_shape_eq; auto.
    + intros a n d La Ln Ld. rewrite iidx_sl by auto. rewrite iidx_tsel by (now rewrite seq_length). rewrite iidx_sl_end by auto.
      rewrite <- Ln at 1. rewrite combine_seq_filter, Ln, <- argsort_filter by auto. rewrite map_map.
      rewrite V1; auto.
      2:{ rewrite map_length. now apply permut_length. }
      f_equal. f_equal. f_equal. rewrite <- (unperm_argsort w n) by auto. f_equal. apply map_ext. intros j. now rewrite Nat.sub_0_r.
Qed.

(** *** renaming the targets of the maps *)
Definition ren (w : list nat) (m : amap) : amap := map (option_map (fun f => nth f w O)) m.
Lemma compose_where w m : Forall (fun f => f < length w)%nat (targets m) -> compose_mappings (map Some w) m = Ok (ren w m).
Proof.
  unfold compose_mappings. induction m as [|[f|] m IH]; intros T; cbn [rmapM ren map targets option_map] in *; auto.
  - inversion T; subst. rewrite (nth_error_nth' _ None) by (now rewrite map_length). cbn [rbind]. rewrite IH by auto. cbn [rbind].
    rewrite (nth_indep _ None (Some O)) by (now rewrite map_length). rewrite (map_nth Some). reflexivity.
  - rewrite IH by auto. reflexivity.
Qed.
Lemma targets_ren w m : targets (ren w m) = map (fun f => nth f w O) (targets m).
Proof. induction m as [|[f|] m IH]; cbn [ren map targets option_map]; auto. f_equal. exact IH. Qed.
Lemma single_ren w m sx : single_at m sx -> single_at (ren w m) sx.
Proof. revert sx; induction m as [|[f|] m IH]; intros [|s sx] S; cbn [ren map single_at option_map] in *; auto. destruct S; split; auto; now apply IH. Qed.
Lemma stored_ren w m x : stored (ren w m) x = stored m x.
Proof. revert x; induction m as [|[f|] m IH]; intros [|k x]; cbn [ren map stored option_map]; auto; f_equal; apply IH. Qed.
Lemma nth_pull w n f : (f < length w)%nat -> nth f (pull w n) O = nth (nth f w O) n O.
Proof. intros H. unfold pull. rewrite (nth_indep _ O (nth O n O)) by (now rewrite map_length). now rewrite (map_nth (fun f => nth f n O)). Qed.
Lemma deltas_ren w m : forall x n, Forall (fun f => f < length w)%nat (targets m) -> deltas (ren w m) x n = deltas m x (pull w n).
Proof.
  induction m as [|[f|] m IH]; intros [|k x] n T; cbn [ren map deltas option_map targets] in *; auto.
  inversion T; subst. rewrite nth_pull by auto. f_equal. now apply IH.
Qed.
Lemma nth_expand_shape sh w m f : NoDup w -> Forall (fun k => k < m)%nat w -> (f < length w)%nat -> length sh = length w ->
  nth (nth f w O) (expand_shape sh w m) O = nth f sh O.
Proof.
  intros ND T H L. assert (Hf : (nth f w O < m)%nat) by (rewrite Forall_forall in T; apply T; now apply nth_In).
  unfold expand_shape. rewrite nth_map_seq by auto. rewrite index_of_nth by auto. apply nth_indep. lia.
Qed.
Lemma gx_ren w m : forall sx sh n, NoDup w -> Forall (fun k => k < n)%nat w -> length sh = length w -> Forall (fun f => f < length w)%nat (targets m) ->
  gx_ (ren w m) sx (expand_shape sh w n) = gx_ m sx sh.
Proof.
  induction m as [|[f|] m IH]; intros [|s sx] sh n ND T L Tm; cbn [ren map gx_ option_map targets] in *; auto.
  - inversion Tm; subst. rewrite nth_expand_shape by auto. f_equal. now apply IH.
  - f_equal. now apply IH.
Qed.
Lemma expand_shape_length sh w n : length (expand_shape sh w n) = n.
Proof. unfold expand_shape. now rewrite map_length, seq_length. Qed.
Lemma expand_shape_pos sh w n : posl sh -> length sh = length w -> posl (expand_shape sh w n).
Proof.
  intros P L. unfold expand_shape. apply Forall_forall. intros s Hs. apply in_map_iff in Hs as (k & <- & Hk).
  destruct (index_of k w) as [j|] eqn:E; auto. destruct (Nat.lt_ge_cases j (length sh)) as [H|H]; [|rewrite nth_overflow; auto].
  exact (proj1 (Forall_forall _ _) P _ (nth_In _ _ H)).
Qed.
Lemma ren_targets_lt w m n : Forall (fun k => k < n)%nat w -> Forall (fun f => f < length w)%nat (targets m) -> Forall (fun f => f < n)%nat (targets (ren w m)).
Proof.
  intros T Tm. rewrite targets_ren. apply Forall_forall. intros f Hf. apply in_map_iff in Hf as (g & <- & Hg).
  rewrite Forall_forall in T, Tm. apply T. apply nth_In. auto.
Qed.
Lemma ren_nodup w m : NoDup w -> NoDup (targets m) -> Forall (fun f => f < length w)%nat (targets m) -> NoDup (targets (ren w m)).
Proof.
  intros ND Nm T. rewrite targets_ren. induction Nm as [|f l H Nm IH]; cbn [map]; constructor; inversion T; subst; auto.
  intros Hi. apply in_map_iff in Hi as (g & E & Hg). rewrite Forall_forall in H3. apply NoDup_nth with (d := O) in E; auto. now subst.
Qed.
Lemma pull_in sh w n i : NoDup w -> Forall (fun k => k < n)%nat w -> length sh = length w -> In i (indices (expand_shape sh w n)) -> In (pull w i) (indices sh).
Proof.
  intros ND T L H. pose proof (indices_length _ _ H) as Li. rewrite expand_shape_length in Li.
  assert (K : forall j, (j < length sh)%nat -> (nth j (pull w i) O < nth j sh O)%nat).
  { intros j Hj. rewrite nth_pull by lia. rewrite <- (nth_expand_shape sh w n j) by (auto; lia). apply in_nth; auto. rewrite expand_shape_length.
    rewrite Forall_forall in T. apply T. apply nth_In. lia. }
  assert (Lp : length (pull w i) = length sh) by (rewrite pull_length; auto). clear -K Lp. revert Lp K. generalize (pull w i) as q. induction sh as [|s sh IH]; intros [|a q] Lp K; try discriminate; [now left|].
  apply TensorLemmas.in_cons. split; [apply (K O); cbn; lia|]. apply IH; [cbn in Lp; lia|]. intros j Hj. apply (K (S j)). cbn; lia.
Qed.

(** expand: features *)
Theorem texpand_ok t w m : wf t -> to_features t -> NoDup w -> Forall (fun k => k < m)%nat w -> length w = nn t -> is_zero0 (tv t) = false ->
  exists r, texpand t w m false = Ok r /\ wf r /\ to_features r /\ dsame (den r) (dexpand (den t) w m).
Proof.
  intros W [Fx Fy] ND T L Z. pose proof (wf_groups t W) as G. destruct (wf_pos4 t W) as (PX & PY & PN & PD).
  destruct (wf_x t W) as (Sx & NDx & _). destruct (wf_y t W) as (Sy & NDy & _).
  pose proof (wf_den_pos t W) as (QX & QY & _ & QD).
  pose proof (den_groups _ _ _ _ _ G) as (Dx & Dy & Dn & Dd).
  set (X := sX t) in *. set (Y := sY t) in *. set (N := sN t) in *. set (D := sD t) in *.
  destruct G as [GS Lx Ly Ln Ld].
  destruct (expand_core (tv t) (X ++ Y) N D w m) as (v1 & v & E1 & E2 & S & V); auto.
  { now rewrite <- app_assoc. } { lia. }
  unfold texpand. replace (forallb _ w) with true.
  2:{ symmetry. apply forallb_forall. intros k Hk. apply Nat.ltb_lt. rewrite Forall_forall in T; auto. }
  cbn [negb]. rewrite Z. rewrite L, Nat.eqb_refl. cbn [negb]. rewrite <- L in Fx, Fy. rewrite !compose_where by auto. cbn [rbind].
  rewrite app_length, Lx, Ly in E1, E2. rewrite Ld in E1, E2. rewrite Ln in E1. rewrite E1. cbn [rbind]. rewrite E2. cbn [rbind].
  destruct (Tensor_ok v X Y (expand_shape N w m) D (ren w (xm t)) (ren w (ym t)) (xd t) (yd t) (dm t)) as (r & Er & Gr & Tr & Mx & My); auto.
  { now rewrite S, <- app_assoc. }
  exists r. split; [exact Er|].
  assert (Nr : nn r = m) by (rewrite <- (g_n _ _ _ _ _ Gr); apply expand_shape_length).
  assert (LN : length N = length w) by lia.
  split. { apply (wf_of r _ _ _ _ Gr); auto.
    - now apply expand_shape_pos.
    - rewrite Mx, expand_shape_length. split; [now apply single_ren|]. split; [now apply ren_nodup|].
      eapply Forall_impl; [|apply (ren_targets_lt w (xm t) m); auto]. intros; cbn beta in *; lia.
    - rewrite My, expand_shape_length. split; [now apply single_ren|]. split; [now apply ren_nodup|].
      eapply Forall_impl; [|apply (ren_targets_lt w (ym t) m); auto]. intros; cbn beta in *; lia. }
  split. { split; rewrite ?Mx, ?My, Nr; now apply ren_targets_lt. }
  destruct (den_groups _ _ _ _ _ Gr) as (Rx & Ry & Rn & Rd). rewrite Mx in Rx; rewrite My in Ry.
  unfold dsame. rewrite Rx, Ry, Rn, Rd. cbn [dexpand xs ys ns ds at_]. rewrite Dx, Dy, Dd, Dn.
  assert (Tx : Forall (fun f => f < length N)%nat (targets (xm t))) by (rewrite LN; auto).
  assert (Ty : Forall (fun f => f < length N)%nat (targets (ym t))) by (rewrite LN; auto).
  assert (Tx' : Forall (fun f => f < length (expand_shape N w m))%nat (targets (ren w (xm t)))) by (rewrite expand_shape_length; now apply ren_targets_lt).
  assert (Ty' : Forall (fun f => f < length (expand_shape N w m))%nat (targets (ren w (ym t)))) by (rewrite expand_shape_length; now apply ren_targets_lt).
  rewrite !gx_msizes, !gx_ren by auto.
  split; [auto|]. split; [auto|]. split; [auto|]. split; [reflexivity|].
  intros x y n d Hx Hy Hn Hd.
  unfold get. rewrite Dx, Dy, Dn, Dd, !gx_msizes by auto. pose proof (pull_in N w m n ND T LN Hn) as Hp. rewrite !clamp_in by auto.
  apply indices_length in Hx, Hy, Hn, Hd, Hp. rewrite gx_length in Hx, Hy. rewrite expand_shape_length in Hn.
  unfold den. cbn [at_]. rewrite Mx, My, Tr, !stored_ren.
  rewrite app_assoc, V by (rewrite ?app_length, ?stored_length; lia). rewrite <- app_assoc.
  rewrite expand_shape_length in Tx', Ty'.
  rewrite (deltas_app (ren w (xm t))), (deltas_app (ren w (ym t))), (deltas_app (xm t)), (deltas_app (ym t)) by first [rewrite Hn; assumption | rewrite Hp; assumption].
  now rewrite !deltas_ren.
Qed.
Lemma texpand_zero t w m b : is_zero0 (tv t) = true -> Forall (fun k => k < m)%nat w -> texpand t w m b = Ok (tnum 0).
Proof.
  intros Z T. unfold texpand. rewrite Z. replace (forallb _ w) with true; auto. symmetry. apply forallb_forall. intros k Hk. apply Nat.ltb_lt. rewrite Forall_forall in T; auto.
Qed.
(** expand: dim *)
Theorem texpand_dim_ok t w m : wf t -> to_features t -> NoDup w -> Forall (fun k => k < m)%nat w -> length w = dm t -> is_zero0 (tv t) = false ->
  exists r, texpand t w m true = Ok r /\ wf r /\ to_features r /\ dsame (den r) (dexpand_dim (den t) w m).
Proof.
  intros W [Fx Fy] ND T L Z. pose proof (wf_groups t W) as G. destruct (wf_pos4 t W) as (PX & PY & PN & PD).
  destruct (wf_x t W) as (Sx & NDx & _). destruct (wf_y t W) as (Sy & NDy & _).
  pose proof (wf_den_pos t W) as (QX & QY & QN & _).
  pose proof (den_groups _ _ _ _ _ G) as (Dx & Dy & Dn & Dd).
  set (X := sX t) in *. set (Y := sY t) in *. set (N := sN t) in *. set (D := sD t) in *.
  destruct G as [GS Lx Ly Ln Ld].
  destruct (expand_core (tv t) (X ++ Y ++ N) D [] w m) as (v1 & v & E1 & E2 & S & V); auto.
  { now rewrite app_nil_r, <- !app_assoc. } { lia. }
  unfold texpand. replace (forallb _ w) with true.
  2:{ symmetry. apply forallb_forall. intros k Hk. apply Nat.ltb_lt. rewrite Forall_forall in T; auto. }
  cbn [negb]. rewrite Z. rewrite L, Nat.eqb_refl. cbn [negb].
  replace (length (X ++ Y ++ N)) with (xd t + yd t + nn t)%nat in E1, E2 by (rewrite !app_length; lia).
  cbn [length seq repeat] in E1, E2. rewrite app_nil_r in E1. rewrite (app_nil_r (map (fun k => tsel k w) (seq 0 m))) in E2. rewrite E1. cbn [rbind]. rewrite E2. cbn [rbind].
  destruct (Tensor_ok v X Y N (expand_shape D w m) (xm t) (ym t) (xd t) (yd t) m) as (r & Er & Gr & Tr & Mx & My); auto.
  { now rewrite S, app_nil_r, <- !app_assoc. } { now rewrite expand_shape_length. }
  exists r. split; [exact Er|].
  assert (Nr : nn r = nn t) by (rewrite <- (g_n _ _ _ _ _ Gr); auto).
  assert (LD : length D = length w) by lia.
  rewrite <- Ln in Fx, Fy.
  split. { apply (wf_of r _ _ _ _ Gr); auto.
    - now apply expand_shape_pos.
    - rewrite Mx. split; [auto|]. split; [auto|]. eapply Forall_impl; [|exact Fx]. intros; cbn beta in *; lia.
    - rewrite My. split; [auto|]. split; [auto|]. eapply Forall_impl; [|exact Fy]. intros; cbn beta in *; lia. }
  split. { split; rewrite ?Mx, ?My, Nr, <- Ln; auto. }
  destruct (den_groups _ _ _ _ _ Gr) as (Rx & Ry & Rn & Rd). rewrite Mx in Rx; rewrite My in Ry.
  unfold dsame. rewrite Rx, Ry, Rn, Rd. cbn [dexpand_dim xs ys ns ds at_]. rewrite Dx, Dy, Dd, Dn.
  rewrite !gx_msizes by auto.
  split; [auto|]. split; [auto|]. split; [auto|]. split; [reflexivity|].
  intros x y n d Hx Hy Hn Hd.
  unfold get. rewrite Dx, Dy, Dn, Dd, !gx_msizes by auto. pose proof (pull_in D w m d ND T LD Hd) as Hp. rewrite !clamp_in by auto.
  apply indices_length in Hx, Hy, Hn, Hd, Hp. rewrite gx_length in Hx, Hy. rewrite expand_shape_length in Hd.
  unfold den. cbn [at_]. rewrite Mx, My, Tr.
  specialize (V (stored (xm t) x ++ stored (ym t) y ++ n) d []). rewrite !app_nil_r, <- !app_assoc in V.
  rewrite V by (rewrite ?app_length, ?stored_length; cbn [length]; lia). 
  rewrite !deltas_app by (rewrite ?Hn; auto). reflexivity.
Qed.
