(** Lemmas about the numpy operations of NDArray.v, on shapes and indices given
    as concatenations of groups. *)
From Verif Require Import Prelude DenseModel AnalyticSpec DenseProofs NDArray.
From Coq Require Import Reals Lra.
Import List ListNotations.
Open Scope R_scope.

(** *** Lists *)
Lemma split_nth {A} f (l : list A) d : (f < length l)%nat ->
  exists u v, l = u ++ nth f l d :: v /\ length u = f /\ forall a, upd_nth f a l = u ++ a :: v.
Proof.
  revert f; induction l as [|h l IH]; intros f H; cbn in H; [lia|].
  destruct f as [|f].
  - exists [], l. cbn. auto.
  - destruct (IH f) as (u & v & E & L & U); [lia|]. exists (h :: u), v. cbn [nth upd_nth length app].
    split; [now rewrite E at 1|]. split; [lia|]. intros a. now rewrite U.
Qed.
Lemma nth_upd_eq {A} f (a : A) l d : (f < length l)%nat -> nth f (upd_nth f a l) d = a.
Proof. revert f; induction l; intros [|f] H; cbn in *; try lia; auto. apply IHl; lia. Qed.
Lemma nth_upd_neq {A} f g (a : A) l d : f <> g -> nth g (upd_nth f a l) d = nth g l d.
Proof. revert f g; induction l; intros [|f] [|g] H; cbn in *; try lia; auto. Qed.
Lemma upd_comm {A} f g (a b : A) l : f <> g -> upd_nth f a (upd_nth g b l) = upd_nth g b (upd_nth f a l).
Proof. revert f g; induction l; intros [|f] [|g] H; cbn in *; try lia; auto. f_equal. apply IHl; lia. Qed.
Lemma upd_upd {A} f (a b : A) l : upd_nth f a (upd_nth f b l) = upd_nth f a l.
Proof. revert f; induction l; intros [|f]; cbn; auto. f_equal; auto. Qed.
Lemma upd_self {A} f (l : list A) d : upd_nth f (nth f l d) l = l.
Proof. revert f; induction l; intros [|f]; cbn; auto. f_equal; auto. Qed.
Lemma upd_app1 {A} f (a : A) l r : (f < length l)%nat -> upd_nth f a (l ++ r) = upd_nth f a l ++ r.
Proof. revert f; induction l; intros [|f] H; cbn in *; try lia; auto. f_equal. apply IHl; lia. Qed.
Lemma upd_app2 {A} f (a : A) l r : upd_nth (length l + f) a (l ++ r) = l ++ upd_nth f a r.
Proof. induction l; cbn; auto. f_equal; auto. Qed.
Lemma upd_app2' {A} n f (a : A) l r : length l = n -> upd_nth (n + f) a (l ++ r) = l ++ upd_nth f a r.
Proof. intros <-. apply upd_app2. Qed.
Lemma list_eq_nth (l l' : list nat) : length l = length l' ->
  (forall j, (j < length l)%nat -> nth j l O = nth j l' O) -> l = l'.
Proof. intros. now apply nth_ext with (d := O) (d' := O). Qed.
Lemma nth_map_seq (f : nat -> nat) n j d : (j < n)%nat -> nth j (map f (seq 0 n)) d = f j.
Proof. intros H. rewrite nth_indep with (d' := f O) by (rewrite map_length, seq_length; auto).
  rewrite map_nth, seq_nth by auto. reflexivity. Qed.

Lemma swapl_length a b l : length (swapl a b l) = length l.
Proof. unfold swapl. now rewrite map_length, seq_length. Qed.
Lemma nth_swapl a b l j : (j < length l)%nat ->
  nth j (swapl a b l) O = nth (if Nat.eqb j a then b else if Nat.eqb j b then a else j) l O.
Proof. intros H. unfold swapl. now rewrite nth_map_seq. Qed.
Lemma swapl_split pre a mid b post :
  swapl (length pre) (length pre + S (length mid)) (pre ++ a :: mid ++ b :: post) = pre ++ b :: mid ++ a :: post.
Proof.
  apply list_eq_nth; [rewrite swapl_length, !app_length; cbn; rewrite !app_length; cbn; lia|].
  intros j H. rewrite swapl_length in H. rewrite nth_swapl by auto.
  destruct (Nat.eqb_spec j (length pre)) as [->|N1].
  { rewrite app_nth2 by lia. replace (_ - _)%nat with (S (length mid)) by lia. cbn [nth].
    rewrite app_nth2 by lia. rewrite Nat.sub_diag. cbn [nth]. rewrite app_nth2 by lia. now rewrite Nat.sub_diag. }
  destruct (Nat.eqb_spec j (length pre + S (length mid))) as [->|N2].
  { rewrite app_nth2 by lia. rewrite Nat.sub_diag. cbn [nth]. rewrite app_nth2 by lia.
    replace (_ - _)%nat with (S (length mid)) by lia. cbn [nth]. rewrite app_nth2 by lia. now rewrite Nat.sub_diag. }
  destruct (Nat.lt_ge_cases j (length pre)).
  { now rewrite !app_nth1 by auto. }
  rewrite !(app_nth2 pre) by auto.
  destruct (j - length pre)%nat as [|r] eqn:E; [lia|]. cbn [nth].
  destruct (Nat.lt_ge_cases r (length mid)).
  { now rewrite !app_nth1 by auto. }
  rewrite !(app_nth2 mid) by auto.
  destruct (r - length mid)%nat as [|r'] eqn:E'; [lia|]. reflexivity.
Qed.
(** swapping axis |pre| with axis f of the last group *)
Lemma swapl_group pre a mid nd f : (f < length nd)%nat ->
  swapl (length pre) (length pre + S (length mid) + f) (pre ++ a :: mid ++ nd) =
  pre ++ nth f nd O :: mid ++ upd_nth f a nd.
Proof.
  intros H. destruct (split_nth f nd O H) as (u & v & E & L & U). rewrite (U a).
  rewrite E at 1. rewrite app_assoc.
  replace (length pre + S (length mid) + f)%nat with (length pre + S (length (mid ++ u)))%nat by (rewrite app_length; lia).
  rewrite swapl_split. now rewrite <- app_assoc.
Qed.

(** *** Broadcasting *)
Definition bcompat (s s' : nat) : Prop := s = s' \/ s = 1%nat \/ s' = 1%nat.
Definition posl (l : list nat) : Prop := Forall (fun s => 1 <= s)%nat l.
Lemma pos_app a b : posl (a ++ b) <-> posl a /\ posl b.
Proof. apply Forall_app. Qed.
Lemma bshape_bmax a b : Forall2 bcompat a b -> posl a -> posl b -> bshape a b = Some (bmax a b).
Proof.
  induction 1 as [|s s' a b Hs _ IH]; intros Pa Pb; cbn; auto.
  inversion Pa; inversion Pb; subst. rewrite IH by auto.
  replace (bc1 s s') with (Some (Nat.max s s')); auto.
  unfold bc1. destruct (Nat.eqb_spec s s'); [f_equal; lia|].
  destruct (Nat.eqb_spec s 1); [f_equal; lia|]. destruct (Nat.eqb_spec s' 1); [f_equal; lia|].
  destruct Hs as [?|[?|?]]; lia.
Qed.
Lemma pad_same r sh : length sh = r -> pad r sh = sh.
Proof. intros <-. unfold pad. now rewrite Nat.sub_diag. Qed.
Lemma align_same sh i : length i = length sh -> align sh i = clamp sh i.
Proof. intros H. unfold align. now rewrite H, Nat.sub_diag. Qed.
Lemma np_bin_ok op a b : Forall2 bcompat (shp a) (shp b) -> posl (shp a) -> posl (shp b) ->
  exists r, np_bin op a b = Ok r /\ shp r = bmax (shp a) (shp b) /\
    forall i, length i = ndim a -> el r i = op (el a (clamp (shp a) i)) (el b (clamp (shp b) i)).
Proof.
  intros C Pa Pb. assert (L : length (shp a) = length (shp b)) by (eapply Forall2_length'; eauto).
  unfold np_bin, ndim. rewrite L, Nat.max_id, !pad_same, bshape_bmax by auto.
  eexists; split; [reflexivity|]. split; [reflexivity|]. intros i Hi. cbn [el].
  now rewrite !align_same by congruence.
Qed.
Lemma bcompat_sym a b : Forall2 bcompat a b -> Forall2 bcompat b a.
Proof. induction 1 as [|s s' a b H _ IH]; constructor; auto. destruct H as [?|[?|?]]; [left|right;right|right;left]; auto. Qed.
Lemma bcompat_ones l : Forall2 bcompat (repeat 1%nat (length l)) l.
Proof. induction l; cbn; constructor; auto. right; left; auto. Qed.
Lemma bcompat_refl l : Forall2 bcompat l l.
Proof. induction l; constructor; auto. left; auto. Qed.
Lemma pos_ones n : posl (repeat 1%nat n).
Proof. induction n; cbn; constructor; auto. Qed.
Lemma bmax_ones l : posl l -> bmax (repeat 1%nat (length l)) l = l.
Proof. induction 1; cbn [repeat length bmax]; auto. rewrite IHForall. f_equal; lia. Qed.
Lemma bmax_app a b c d : length a = length b -> bmax (a ++ c) (b ++ d) = bmax a b ++ bmax c d.
Proof. revert b; induction a; intros [|s b] H; cbn in *; try discriminate; auto. rewrite IHa by lia. auto. Qed.
Lemma bmax_length a b : length a = length b -> length (bmax a b) = length b.
Proof. revert b; induction a; intros [|s b] H; cbn in *; try discriminate; auto. Qed.
Lemma bmax_pos a b : posl a -> posl b -> posl (bmax a b).
Proof.
  intros H; revert b; induction H; intros b Hb; cbn; auto.
  destruct Hb; constructor; auto; [lia|]. now apply IHForall.
Qed.

(** *** Indexing *)
Lemma ishape_sl A l sh : ishape (repeat Sl (length A) ++ l) (A ++ sh) = A ++ ishape l sh.
Proof. induction A; cbn; auto. f_equal; auto. Qed.
Lemma ishape_nw b l sh : ishape (repeat Nw b ++ l) sh = repeat 1%nat b ++ ishape l sh.
Proof. induction b; cbn; auto. f_equal; auto. Qed.
Lemma ishape_sl' a A l sh : a = length A -> ishape (repeat Sl a ++ l) (A ++ sh) = A ++ ishape l sh.
Proof. intros ->. apply ishape_sl. Qed.
Lemma ishape_sl_end a A : a = length A -> ishape (repeat Sl a) A = A.
Proof. intros ->. induction A; cbn; auto. f_equal; auto. Qed.
Lemma ishape_nw_end b : ishape (repeat Nw b) [] = repeat 1%nat b.
Proof. rewrite <- (app_nil_r (repeat Nw b)), ishape_nw. cbn. apply app_nil_r. Qed.
Lemma iidx_sl a A l i : a = length A -> iidx (repeat Sl a ++ l) (A ++ i) = A ++ iidx l i.
Proof. intros ->. induction A; cbn; auto. f_equal; auto. Qed.
Lemma iidx_nw b B l i : b = length B -> iidx (repeat Nw b ++ l) (B ++ i) = iidx l i.
Proof. intros ->. induction B; cbn; auto. Qed.
Lemma iidx_sl_end a A : a = length A -> iidx (repeat Sl a) A = A.
Proof. intros ->. induction A; cbn; auto. f_equal; auto. Qed.
Lemma iidx_nw_end b B : b = length B -> iidx (repeat Nw b) B = [].
Proof. intros ->. induction B; cbn; auto. Qed.
Lemma count_sl_app l l' : count_sl (l ++ l') = (count_sl l + count_sl l')%nat.
Proof. induction l as [|[] l IH]; cbn; auto. Qed.
Lemma count_sl_sl n : count_sl (repeat Sl n) = n.
Proof. induction n; cbn; auto. Qed.
Lemma count_sl_nw n : count_sl (repeat Nw n) = O.
Proof. induction n; cbn; auto. Qed.
Definition nodots (l : list sel) : Prop := Forall (fun s => s <> Dots) l.
Lemma nodots_app l l' : nodots l -> nodots l' -> nodots (l ++ l').
Proof. intros; now apply Forall_app. Qed.
Lemma nodots_sl n : nodots (repeat Sl n).
Proof. induction n; cbn; constructor; auto; discriminate. Qed.
Lemma nodots_nw n : nodots (repeat Nw n).
Proof. induction n; cbn; constructor; auto; discriminate. Qed.
Lemma undots_0 l : nodots l -> undots 0 l = l.
Proof. induction 1 as [|[] l H _ IH]; cbn; auto; try (f_equal; auto); now destruct H. Qed.
Lemma np_index_ok l a : nodots l -> count_sl l = ndim a ->
  np_index l a = Ok (mkA (ishape l (shp a)) (fun i => el a (iidx l i))).
Proof.
  intros H C. unfold np_index. rewrite C, Nat.ltb_irrefl, Nat.sub_diag, undots_0 by auto. reflexivity.
Qed.
Lemma undots_nw e b r : undots e (repeat Nw b ++ r) = repeat Nw b ++ undots e r.
Proof. induction b; cbn; auto. f_equal; auto. Qed.
Lemma np_index_dots b c a :
  np_index (repeat Nw b ++ Dots :: repeat Nw c) a =
  Ok (mkA (ishape (repeat Nw b ++ repeat Sl (ndim a) ++ repeat Nw c) (shp a))
          (fun i => el a (iidx (repeat Nw b ++ repeat Sl (ndim a) ++ repeat Nw c) i))).
Proof.
  unfold np_index. rewrite count_sl_app, count_sl_nw. cbn [count_sl]. rewrite count_sl_nw. cbn [plus].
  replace (ndim a <? 0) with false by (symmetry; apply Nat.ltb_ge; lia).
  rewrite Nat.sub_0_r, undots_nw. cbn [undots]. reflexivity.
Qed.

(** *** Sums over a block of axes *)
Lemma mask_range a b c : mask (a + b + c) (map (fun k => a + k)%nat (seq 0 b)) =
  repeat false a ++ repeat true b ++ repeat false c.
Proof.
  unfold mask. rewrite !seq_app, !map_app, <- app_assoc. cbn [plus].
  assert (M : forall j, existsb (Nat.eqb j) (map (fun k => a + k)%nat (seq 0 b)) = true <-> (a <= j < a + b)%nat).
  { intros j. rewrite existsb_exists. split.
    - intros (x & Hx & E). apply Nat.eqb_eq in E as <-. apply in_map_iff in Hx as (k & <- & Hk). apply in_seq in Hk. lia.
    - intros H. exists j. split; [|apply Nat.eqb_refl]. apply in_map_iff. exists (j - a)%nat. split; [lia|]. apply in_seq; lia. }
  assert (K : forall s n b', (forall j, (s <= j < s + n)%nat -> existsb (Nat.eqb j) (map (fun k => a + k)%nat (seq 0 b)) = b') ->
             map (fun j => existsb (Nat.eqb j) (map (fun k => a + k)%nat (seq 0 b))) (seq s n) = repeat b' n).
  { intros s n b'. revert s; induction n as [|n IH]; intros s H; cbn [seq map repeat]; auto.
    rewrite H by lia. f_equal. apply IH. intros j Hj. apply H; lia. }
  f_equal; [|f_equal]; apply K; intros j Hj.
  - apply not_true_is_false. rewrite M. lia.
  - apply M. lia.
  - apply not_true_is_false. rewrite M. lia.
Qed.
Lemma pick_app {A} b m m' (l l' : list A) : length m = length l -> pick b (m ++ m') (l ++ l') = pick b m l ++ pick b m' l'.
Proof. revert l; induction m; intros [|x l] H; cbn in *; try discriminate; auto.
  destruct (Bool.eqb a b); cbn; [f_equal|]; apply IHm; lia. Qed.
Lemma pick_same {A} b (l : list A) n : n = length l -> pick b (repeat b n) l = l.
Proof. intros ->. induction l; cbn; auto. destruct b; cbn; f_equal; auto. Qed.
Lemma pick_ft {A} (l : list A) n : n = length l -> pick false (repeat true n) l = [].
Proof. intros ->. induction l; cbn; auto. Qed.
Lemma pick_tf {A} (l : list A) n : n = length l -> pick true (repeat false n) l = [].
Proof. intros ->. induction l; cbn; auto. Qed.
Lemma merge_false n m i i' k : n = length i -> merge (repeat false n ++ m) (i ++ i') k = i ++ merge m i' k.
Proof. intros ->. induction i; cbn; auto. f_equal; auto. Qed.
Lemma merge_true n m i k k' : n = length k -> merge (repeat true n ++ m) i (k ++ k') = k ++ merge m i k'.
Proof. intros ->. induction k; cbn; auto. f_equal; auto. Qed.
Lemma has_dup_range a s b : has_dup (map (fun k => a + k)%nat (seq s b)) = false.
Proof.
  revert s; induction b as [|b IH]; intros s; cbn [seq map has_dup]; auto. rewrite IH, orb_false_r.
  apply not_true_is_false. rewrite existsb_exists. intros (x & Hx & E). apply Nat.eqb_eq in E as <-.
  apply in_map_iff in Hx as (k & E & Hk). apply in_seq in Hk. lia.
Qed.
Lemma np_sum_range v A B C : shp v = A ++ B ++ C ->
  exists r, np_sum v (map (fun k => length A + k)%nat (seq 0 (length B))) = Ok r /\ shp r = A ++ C /\
    forall a c, length a = length A -> length c = length C ->
      el r (a ++ c) = Rsum (fun b => el v (a ++ b ++ c)) (indices B).
Proof.
  intros E. unfold np_sum, ndim. rewrite has_dup_range, orb_false_r.
  replace (existsb _ _) with false.
  2:{ symmetry. apply not_true_is_false. rewrite existsb_exists. intros (x & Hx & H). apply Nat.leb_le in H.
      apply in_map_iff in Hx as (k & <- & Hk). apply in_seq in Hk. rewrite E, !app_length in H. lia. }
  eexists; split; [reflexivity|]. cbn [shp el]. rewrite E, !app_length, Nat.add_assoc, mask_range.
  rewrite !pick_app by (now rewrite repeat_length). 
  rewrite !(pick_same false), pick_ft by auto. cbn [app]. split; [reflexivity|].
  rewrite !pick_tf, pick_same by auto. cbn [app]. rewrite app_nil_r.
  intros a c La Lc. rewrite sumR_map. apply Rsum_ext. intros b Hb. apply indices_length in Hb.
  rewrite merge_false by auto. rewrite <- (app_nil_r b) at 1. rewrite merge_true by auto.
  rewrite <- (app_nil_r (repeat false _)). rewrite <- (app_nil_r c) at 1. rewrite merge_false by auto. cbn. now rewrite app_nil_r.
Qed.
Lemma np_sum_none v : exists r, np_sum v [] = Ok r /\ shp r = shp v /\ forall i, length i = ndim v -> el r i = el v i.
Proof.
  unfold np_sum. cbn [existsb has_dup orb]. eexists; split; [reflexivity|]. cbn [shp el].
  assert (M : mask (ndim v) [] = repeat false (ndim v)).
  { unfold mask. generalize 0%nat. induction (ndim v); intros s; cbn; auto. f_equal; auto. }
  rewrite M. split; [now apply pick_same|]. intros i Hi.
  rewrite pick_tf by auto. cbn [indices map sumR fold_right].
  rewrite <- (app_nil_r (repeat _ _)). rewrite <- (app_nil_r i) at 1. rewrite merge_false by auto. cbn. rewrite app_nil_r. lra.
Qed.
