(** Closure properties of well-formed results. *)
From Verif Require Import Prelude DenseModel FuncModel AnalyticSpec FuncSpec DenseProofs.
From Coq Require Import Reals Lra.
Import List ListNotations.
Open Scope R_scope.

Lemma get_dsum l x y n d : get (dsum l) x y n d = Rsum (fun t => get t x y n d) l.
Proof. unfold dsum. rewrite get_fold_dadd, get_zero; lra. Qed.

(** *** axes *)
Lemma ax_le_refl a : ax_le a a.
Proof. induction a; constructor; auto. Qed.
Lemma ax_le_trans a b c : ax_le a b -> ax_le b c -> ax_le a c.
Proof.
  unfold ax_le. intros H; revert c; induction H as [|s s' a b Hs H IH]; intros c Hc; inversion Hc; subst; constructor; auto. lia.
Qed.
Lemma ax_le_length a b : ax_le a b -> length a = length b.
Proof. apply Forall2_length'. Qed.
Lemma ax_sub_trans a b c : ax_sub a b -> ax_le b c -> ax_sub a c.
Proof. intros [->|H] Hc; [left; auto|right; eapply ax_le_trans; eauto]. Qed.
Lemma ax_sub_refl a : ax_sub a a.
Proof. right; apply ax_le_refl. Qed.
Lemma ax_le_bmax a b o : ax_le a o -> ax_le b o -> ax_le (bmax a b) o.
Proof.
  unfold ax_le. intros H; revert b; induction H as [|s s' a o Hs H IH]; intros b Hb; inversion Hb; subst; cbn; constructor; auto.
  lia.
Qed.
Lemma ax_sub_bmax a b o : ax_sub a o -> ax_sub b o -> ax_sub (bmax a b) o.
Proof.
  intros [->|Ha] [->|Hb]; [left; auto | right; auto | right; now rewrite bmax_nil_r |].
  right; now apply ax_le_bmax.
Qed.
Lemma ax_le_bmax_full a o : ax_le a o -> bmax o a = o.
Proof.
  unfold ax_le. induction 1 as [|s s' a o Hs H IH]; cbn; auto. rewrite IH. f_equal. lia.
Qed.
Lemma ax_le_app a b o o' : ax_le a o -> ax_le b o' -> ax_le (a ++ b) (o ++ o').
Proof. apply Forall2_app. Qed.
Lemma ax_sub_len a o : ax_sub a o -> length a = length o -> ax_le a o.
Proof. intros [->|H] Hl; auto. destruct o; [constructor|discriminate]. Qed.
Lemma bmax_len_l a b o : ax_sub a o -> ax_sub b o -> length a = length o -> length (bmax a b) = length o.
Proof.
  intros Ha Hb Hl. apply ax_sub_len in Hl; auto. destruct Hb as [->|Hb].
  - rewrite bmax_nil_r. now apply ax_le_length.
  - apply ax_le_length. now apply ax_le_bmax.
Qed.
Lemma bmax_len_r a b o : ax_sub a o -> ax_sub b o -> length b = length o -> length (bmax a b) = length o.
Proof. intros; rewrite bmax_comm; eapply bmax_len_l; eauto. Qed.

Lemma two_bmax (a b s : list nat) : (a = [] \/ a = s) -> (b = [] \/ b = s) -> bmax a b = [] \/ bmax a b = s.
Proof. intros [-> | ->] [-> | ->]; auto. - right; apply bmax_nil_r. - right; apply bmax_idem. Qed.
Lemma bmax_full_l (a b s : list nat) : a = s -> (b = [] \/ b = s) -> bmax a b = s.
Proof. intros -> [-> | ->]; [apply bmax_nil_r|apply bmax_idem]. Qed.
Lemma bmax_full_r (a b s : list nat) : (a = [] \/ a = s) -> b = s -> bmax a b = s.
Proof. intros [-> | ->] ->; auto using bmax_idem. Qed.

(** *** nil *)
Lemma isnil_zero : isnil dzero. Proof. intros ? ? ? ?; reflexivity. Qed.
Lemma isnil_dadd a b : isnil a -> isnil b -> isnil (dadd a b).
Proof. intros Ha Hb x y n d. rewrite get_dadd, Ha, Hb; lra. Qed.
Lemma isnil_dmul_l a b : isnil a -> isnil (dmul a b).
Proof. intros Ha x y n d. rewrite get_dmul, Ha; lra. Qed.
Lemma isnil_dmul_r a b : isnil b -> isnil (dmul a b).
Proof. intros Ha x y n d. rewrite get_dmul, Ha; lra. Qed.
Lemma isnil_dscal c a : isnil a -> isnil (dscal c a).
Proof. intros Ha x y n d. rewrite get_dscal, Ha; lra. Qed.
Lemma isnil_dtrans a : isnil a -> isnil (dtrans a).
Proof. intros Ha x y n d. apply Ha. Qed.
Lemma isnil_ddrop a : isnil a -> isnil (ddrop a).
Proof. intros Ha x y n d. rewrite get_ddrop; apply Ha. Qed.
Lemma isnil_deq a b : deq a b -> isnil a -> isnil b.
Proof. intros H Ha x y n d. rewrite <- H; apply Ha. Qed.
Lemma nil_deq a b : isnil a -> isnil b -> deq a b.
Proof. intros Ha Hb x y n d. now rewrite Ha, Hb. Qed.

Lemma deq_refl a : deq a a. Proof. intros ? ? ? ?; reflexivity. Qed.
Lemma deq_sym a b : deq a b -> deq b a. Proof. intros H ? ? ? ?; symmetry; apply H. Qed.
Lemma deq_trans a b c : deq a b -> deq b c -> deq a c.
Proof. intros H H' ? ? ? ?; rewrite H; apply H'. Qed.
Lemma deq_dadd a a' b b' : deq a a' -> deq b b' -> deq (dadd a b) (dadd a' b').
Proof. intros H H' x y n d; now rewrite !get_dadd, H, H'. Qed.
Lemma deq_dmul a a' b b' : deq a a' -> deq b b' -> deq (dmul a b) (dmul a' b').
Proof. intros H H' x y n d; now rewrite !get_dmul, H, H'. Qed.
Lemma deq_dscal c a a' : deq a a' -> deq (dscal c a) (dscal c a').
Proof. intros H x y n d; now rewrite !get_dscal, H. Qed.
Lemma deq_dshift c a a' : deq a a' -> deq (dshift a c) (dshift a' c).
Proof. intros H x y n d; now rewrite !get_dshift, H. Qed.
Lemma deq_dtrans a a' : deq a a' -> deq (dtrans a) (dtrans a').
Proof. intros H x y n d; apply H. Qed.
Lemma deq_dsum l l' : Forall2 deq l l' -> deq (dsum l) (dsum l').
Proof.
  intros H x y n d. rewrite !get_dsum. induction H; auto.
  rewrite !Rsum_cons, IHForall2. f_equal; apply H.
Qed.

(** *** tst *)
Lemma tst_zero sx sy out : tst sx sy out dzero.
Proof. repeat split; cbn; auto; try (left; auto; fail). left; apply isnil_zero. Qed.
Lemma tst_dadd sx sy out a b : tst sx sy out a -> tst sx sy out b -> tst sx sy out (dadd a b).
Proof.
  intros (A1 & A2 & A3 & A4 & A5) (B1 & B2 & B3 & B4 & B5). repeat split; cbn.
  - now apply two_bmax. - now apply two_bmax.
  - now apply ax_sub_bmax. - now apply ax_sub_bmax.
  - destruct A5 as [A5|(A5 & A6 & A7 & A8)].
    + destruct B5 as [B5|(B5 & B6 & B7 & B8)]; [left; now apply isnil_dadd|right].
      repeat split; [now apply bmax_full_r|now apply bmax_full_r|now apply bmax_len_r|now apply bmax_len_r].
    + right. repeat split; [now apply bmax_full_l|now apply bmax_full_l|now apply bmax_len_l|now apply bmax_len_l].
Qed.
Lemma tst_dmul sx1 sy1 sx2 sy2 sx sy out a b :
  (sx1 = [] \/ sx1 = sx) -> (sx2 = [] \/ sx2 = sx) -> bmax sx1 sx2 = sx ->
  (sy1 = [] \/ sy1 = sy) -> (sy2 = [] \/ sy2 = sy) -> bmax sy1 sy2 = sy ->
  tst sx1 sy1 out a -> tst sx2 sy2 out b -> tst sx sy out (dmul a b).
Proof.
  intros X1 X2 X Y1 Y2 Y (A1 & A2 & A3 & A4 & A5) (B1 & B2 & B3 & B4 & B5). repeat split; cbn.
  - apply two_bmax; intuition congruence. - apply two_bmax; intuition congruence.
  - now apply ax_sub_bmax. - now apply ax_sub_bmax.
  - destruct A5 as [A5|(A5 & A6 & A7 & A8)]; [left; now apply isnil_dmul_l|].
    destruct B5 as [B5|(B5 & B6 & B7 & B8)]; [left; now apply isnil_dmul_r|right].
    repeat split; try congruence; now apply bmax_len_l.
Qed.
Lemma tst_vmul sx sy out a b : tst [] [] out a -> tst sx sy out b -> tst sx sy out (dmul a b).
Proof. apply tst_dmul; auto. Qed.
Lemma tst_cross sx sy out a b : tst sx [] out a -> tst [] sy out b -> tst sx sy out (dmul a b).
Proof. apply tst_dmul; auto. apply bmax_nil_r. Qed.
Lemma tst_dmap_lin sx sy out f a : f 0 = 0 -> tst sx sy out a -> tst sx sy out (dmap f a).
Proof.
  intros Hf (A1 & A2 & A3 & A4 & A5). repeat split; cbn; auto.
  destruct A5 as [A5|A5]; [left|right; auto]. intros x y n d. now rewrite get_dmap, A5.
Qed.
Lemma tst_dscal sx sy out c a : tst sx sy out a -> tst sx sy out (dscal c a).
Proof. apply tst_dmap_lin; lra. Qed.
Lemma tst_dtrans sx sy out a : tst sx sy out a -> tst sy sx out (dtrans a).
Proof.
  intros (A1 & A2 & A3 & A4 & A5). repeat split; cbn; auto.
  destruct A5 as [A5|(? & ? & ? & ?)]; [left; now apply isnil_dtrans|right; auto].
Qed.
Lemma tst_weaken sx sy o o' a :
  ax_le (fst o) (fst o') -> ax_le (snd o) (snd o') -> tst sx sy o a -> tst sx sy o' a.
Proof.
  intros H1 H2 (A1 & A2 & A3 & A4 & A5). repeat split; auto; try (eapply ax_sub_trans; eauto).
  destruct A5 as [A5|(? & ? & ? & ?)]; [left; auto|right]. repeat split; auto.
  - apply ax_le_length in H1; congruence. - apply ax_le_length in H2; congruence.
Qed.
Lemma has_st_tst out v : has_st v out -> tst [] [] out v.
Proof.
  intros (H1 & H2 & H3 & H4). repeat split; auto.
  - rewrite H3; apply ax_sub_refl. - rewrite H4; apply ax_sub_refl.
  - right. now rewrite H1, H2, H3, H4.
Qed.
Lemma tst_dsum sx sy out l : Forall (tst sx sy out) l -> tst sx sy out (dsum l).
Proof.
  unfold dsum. intros H. assert (G : tst sx sy out dzero) by apply tst_zero.
  revert G; generalize dzero as a. induction H; cbn; auto using tst_dadd.
Qed.

(** *** contractions *)
Lemma dot_norm_aux sk sx' sy' ok self other out (sy : list nat) :
  sk = flat ok -> tst sk sy out self -> tst sx' sy' ok other ->
  isnil self \/ isnil other \/
  (bmax (xs self) (ns (ddrop other)) = sk /\ length (ns other) = length (fst ok)).
Proof.
  intros -> (A1 & A2 & A3 & A4 & A5) (B1 & B2 & B3 & B4 & B5).
  destruct A5 as [A5|(A5 & A6 & A7 & A8)]; auto.
  destruct B5 as [B5|(B5 & B6 & B7 & B8)]; auto. right; right; split; auto.
  cbn. rewrite A5. apply ax_le_bmax_full. apply ax_le_app; now apply ax_sub_len.
Qed.
Lemma dot_left_norm sy ok out self sx' sy' other x y m d :
  tst (flat ok) sy out self -> tst sx' sy' ok other ->
  get (ddot_left self (ddrop other)) x y m d =
  Rsum (fun N => get other x [] (firstn (length (fst ok)) N) (skipn (length (fst ok)) N)
                 * get self N y m d) (indices (flat ok)).
Proof.
  intros Hs Ho. rewrite get_ddot_left.
  destruct (dot_norm_aux _ _ _ _ _ _ _ _ eq_refl Hs Ho) as [H|[H|[H Hl]]].
  - rewrite !Rsum_zero; auto; intros; rewrite H; lra.
  - rewrite !Rsum_zero; auto; intros; [rewrite H|rewrite (isnil_ddrop _ H)]; lra.
  - rewrite H. apply Rsum_ext; intros N _. now rewrite get_ddrop, Hl.
Qed.
Lemma dot_right_norm ok out self sx' sy' other x y m d :
  tst (flat ok) [] out self -> tst sx' sy' ok other ->
  get (ddot_right self (ddrop other)) x y m d =
  Rsum (fun N => get other x y (firstn (length (fst ok)) N) (skipn (length (fst ok)) N)
                 * get self N [] m d) (indices (flat ok)).
Proof.
  intros Hs Ho. rewrite get_ddot_right.
  destruct (dot_norm_aux _ _ _ _ _ _ _ _ eq_refl Hs Ho) as [H|[H|[H Hl]]].
  - rewrite !Rsum_zero; auto; intros; rewrite H; lra.
  - rewrite !Rsum_zero; auto; intros; [rewrite H|rewrite (isnil_ddrop _ H)]; lra.
  - rewrite H. apply Rsum_ext; intros N _. now rewrite get_ddrop, Hl.
Qed.
Lemma tst_dot_left sy ok out self sx' other :
  tst (flat ok) sy out self -> tst sx' [] ok other ->
  tst sx' sy out (ddot_left self (ddrop other)).
Proof.
  intros Hs Ho. pose proof (fun x y m d => dot_left_norm _ _ _ _ _ _ _ x y m d Hs Ho) as N.
  destruct Hs as (A1 & A2 & A3 & A4 & A5), Ho as (B1 & B2 & B3 & B4 & B5).
  repeat split; cbn [ddot_left ddrop xs ys ns ds]; rewrite ?bmax_nil_r; auto.
  destruct A5 as [A5|(A5 & A6 & A7 & A8)].
  { left. intros x y m d. rewrite N. apply Rsum_zero; intros; rewrite A5; lra. }
  destruct B5 as [B5|(B5 & B6 & B7 & B8)].
  { left. intros x y m d. rewrite N. apply Rsum_zero; intros; rewrite B5; lra. }
  right; auto.
Qed.
Lemma tst_dot_right sx' sy' ok out self other :
  tst (flat ok) [] out self -> tst sx' sy' ok other ->
  tst sx' sy' out (ddot_right self (ddrop other)).
Proof.
  intros Hs Ho. pose proof (fun x y m d => dot_right_norm _ _ _ _ _ _ x y m d Hs Ho) as N.
  destruct Hs as (A1 & A2 & A3 & A4 & A5), Ho as (B1 & B2 & B3 & B4 & B5).
  repeat split; cbn [ddot_right ddrop xs ys ns ds]; rewrite ?bmax_nil_r; auto.
  destruct A5 as [A5|(A5 & A6 & A7 & A8)].
  { left. intros x y m d. rewrite N. apply Rsum_zero; intros; rewrite A5; lra. }
  destruct B5 as [B5|(B5 & B6 & B7 & B8)].
  { left. intros x y m d. rewrite N. apply Rsum_zero; intros; rewrite B5; lra. }
  right; auto.
Qed.
Lemma quad_norm ok ol out h sx gi sy gj x y n d :
  tst (flat ok) (flat ol) out h -> tst sx [] ok gi -> tst sy [] ol gj ->
  get (quad_term h (ddrop gi) (ddrop gj)) x y n d =
  Rsum (fun M => get gj y [] (firstn (length (fst ol)) M) (skipn (length (fst ol)) M) *
    Rsum (fun N => get gi x [] (firstn (length (fst ok)) N) (skipn (length (fst ok)) N)
                   * get h N M n d) (indices (flat ok))) (indices (flat ol)).
Proof.
  intros Hh Hi Hj. unfold quad_term. rewrite get_dtrans.
  rewrite (dot_left_norm sx ol out _ sy [] gj); auto.
  2:{ apply tst_dtrans, (tst_dot_left _ _ _ _ _ _ Hh Hi). }
  apply Rsum_ext; intros M _. f_equal. rewrite get_dtrans.
  now rewrite (dot_left_norm _ _ _ _ _ _ _ _ _ _ _ Hh Hi).
Qed.
Lemma tst_quad ok ol out h sx gi sy gj :
  tst (flat ok) (flat ol) out h -> tst sx [] ok gi -> tst sy [] ol gj ->
  tst sx sy out (quad_term h (ddrop gi) (ddrop gj)).
Proof.
  intros Hh Hi Hj. unfold quad_term. apply tst_dtrans.
  eapply tst_dot_left; [|eassumption]. apply tst_dtrans. eapply tst_dot_left; eassumption.
Qed.

(** *** expand and flip *)
Lemma clampi_0 s : clampi s 0 = 0%nat.
Proof. unfold clampi; destruct (s <=? 1); auto. Qed.
Lemma nth_clamp sh i f : (f < length sh)%nat -> nth f (clamp sh i) 0%nat = clampi (nth f sh 1%nat) (nth f i 0%nat).
Proof.
  revert i f; induction sh as [|s sh IH]; intros i f Hf; cbn in Hf; [lia|].
  destruct i as [|k i]; cbn [clamp].
  - destruct f; cbn; now rewrite clampi_0.
  - destruct f; cbn; auto. apply IH; lia.
Qed.
Lemma index_of_nth wh j : NoDup wh -> (j < length wh)%nat -> index_of (nth j wh 0%nat) wh = Some j.
Proof.
  revert j; induction wh as [|h wh IH]; cbn; intros j Hn Hj; [lia|].
  inversion Hn; subst. destruct j as [|j]; [now rewrite Nat.eqb_refl|].
  destruct (Nat.eqb_spec h (nth j wh 0%nat)) as [E|E].
  - exfalso; apply H1; rewrite E; apply nth_In; lia.
  - rewrite IH by (auto; lia). reflexivity.
Qed.
Lemma index_of_lt k wh j : index_of k wh = Some j -> (j < length wh)%nat /\ nth j wh 0%nat = k.
Proof.
  revert j; induction wh as [|h wh IH]; cbn; intros j H; [discriminate|].
  destruct (Nat.eqb_spec h k) as [E|E].
  - injection H as <-. split; [lia|auto].
  - destruct (index_of k wh) as [j'|]; [|discriminate]. injection H as <-.
    destruct (IH j' eq_refl). split; [lia|auto].
Qed.
Lemma index_of_None k wh : index_of k wh = None <-> ~ In k wh.
Proof.
  induction wh as [|h wh IH]; cbn; [tauto|].
  destruct (Nat.eqb_spec h k) as [E|E]; [split; [discriminate|intros H; exfalso; auto]|].
  destruct (index_of k wh); cbn.
  - split; [discriminate|]. intros H. exfalso. destruct IH as [_ IH]. discriminate IH. tauto.
  - split; auto. intros _ [?|?]; auto. now apply IH.
Qed.
Lemma expand_shape_length sh wh m : length (expand_shape sh wh m) = m.
Proof. unfold expand_shape; now rewrite map_length, seq_length. Qed.
Lemma nth_expand_shape sh wh m k : (k < m)%nat -> nth k (expand_shape sh wh m) 1%nat =
  match index_of k wh with Some j => nth j sh 1%nat | None => 1%nat end.
Proof.
  intros H. unfold expand_shape.
  rewrite nth_indep with (d' := (fun k => match index_of k wh with Some j => nth j sh 1%nat | None => 1%nat end) 0%nat)
    by now rewrite map_length, seq_length.
  rewrite (map_nth (fun k => match index_of k wh with Some j => nth j sh 1%nat | None => 1%nat end)).
  now rewrite seq_nth.
Qed.
Lemma nth_expand_shape_wh sh wh m j : NoDup wh -> Forall (fun f => f < m)%nat wh -> (j < length wh)%nat ->
  nth (nth j wh 0%nat) (expand_shape sh wh m) 1%nat = nth j sh 1%nat.
Proof.
  intros Hn Hf Hj. rewrite nth_expand_shape, index_of_nth; auto.
  eapply Forall_forall in Hf; [exact Hf|]. now apply nth_In.
Qed.
Lemma nth_pull wh i j : nth j (pull wh i) 0%nat = if (j <? length wh)%nat then nth (nth j wh 0%nat) i 0%nat else 0%nat.
Proof.
  unfold pull. destruct (Nat.ltb_spec j (length wh)).
  - rewrite nth_indep with (d' := (fun f => nth f i 0%nat) 0%nat) by now rewrite map_length.
    apply (map_nth (fun f => nth f i 0%nat)).
  - apply nth_overflow. now rewrite map_length.
Qed.
Lemma pull_length wh i : length (pull wh i) = length wh.
Proof. apply map_length. Qed.
Lemma clamp_ext_nth sh i i' : length i = length i' ->
  (forall j, (j < length sh)%nat -> clampi (nth j sh 1%nat) (nth j i 0%nat) = clampi (nth j sh 1%nat) (nth j i' 0%nat)) ->
  clamp sh i = clamp sh i'.
Proof.
  revert i i'; induction sh as [|s sh IH]; intros [|k i] [|k' i'] Hl H; cbn in *; auto; try discriminate.
  f_equal.
  - apply (H 0%nat); lia.
  - apply IH; [lia|]. intros j Hj. apply (H (S j)); lia.
Qed.
Lemma clamp_pull sh wh m i : (length sh <= length wh)%nat -> NoDup wh -> Forall (fun f => f < m)%nat wh ->
  clamp sh (pull wh (clamp (expand_shape sh wh m) i)) = clamp sh (pull wh i).
Proof.
  intros Hl Hn Hf. apply clamp_ext_nth; [now rewrite !pull_length|]. intros j Hj.
  assert (J : (j < length wh)%nat) by lia.
  rewrite !nth_pull. destruct (Nat.ltb_spec j (length wh)); [|lia].
  rewrite nth_clamp.
  - rewrite nth_expand_shape_wh by auto. apply clampi_idem.
  - rewrite expand_shape_length. eapply Forall_forall in Hf; [exact Hf|]. now apply nth_In.
Qed.
Lemma nth_upd_nth f k v (i : idx) : nth f (upd_nth k v i) 0%nat =
  if (f =? k)%nat then if (k <? length i)%nat then v else 0%nat else nth f i 0%nat.
Proof.
  revert f k; induction i as [|a i IH]; intros [|f] [|k]; cbn; auto.
  - now destruct (f =? k)%nat.
  - rewrite IH. reflexivity.
Qed.
Lemma flip_idx_length sh fl i : length (flip_idx sh fl i) = length i.
Proof.
  unfold flip_idx. revert i; induction fl as [|k fl IH]; intros i; cbn; auto.
  rewrite IH. unfold flip1. now rewrite upd_nth_length.
Qed.
Lemma nth_flip_idx f sh sh' fl i i' : length i = length i' ->
  nth f sh 1%nat = nth f sh' 1%nat -> nth f i 0%nat = nth f i' 0%nat ->
  nth f (flip_idx sh fl i) 0%nat = nth f (flip_idx sh' fl i') 0%nat.
Proof.
  unfold flip_idx. revert i i'; induction fl as [|k fl IH]; intros i i' Hl Hs Hi; cbn; auto.
  apply IH; auto; unfold flip1.
  - now rewrite !upd_nth_length.
  - rewrite !nth_upd_nth, Hl. destruct (Nat.eqb_spec f k); [subst k|auto].
    now rewrite Hs, Hi.
Qed.

(** the entry of the wrapped function behind an entry of the wrapper *)
Definition wn (w : wmap) (o : pst) (n : idx) : idx :=
  pull (w_fm w) (flip_idx (expand_shape (fst o) (w_fm w) (w_nf w)) (w_flip w)
                          (clamp (expand_shape (fst o) (w_fm w) (w_nf w)) n)).

(** [w] re-indexes values of shape [o]: one distinct target per axis. *)
Record wmap_ok (w : wmap) (o : pst) : Prop := mkWok {
  wo_fl : length (w_fm w) = length (fst o);
  wo_fd : NoDup (w_fm w);
  wo_fb : Forall (fun f => f < w_nf w)%nat (w_fm w);
  wo_dl : length (w_dm w) = length (snd o);
  wo_dd : NoDup (w_dm w);
  wo_db : Forall (fun f => f < w_nd w)%nat (w_dm w);
  wo_pos : Forall (fun s => 1 <= s)%nat (flat o) }.

Definition w_out (w : wmap) (o : pst) : pst :=
  (expand_shape (fst o) (w_fm w) (w_nf w), expand_shape (snd o) (w_dm w) (w_nd w)).

Lemma ax_le_nth a o j : ax_le a o -> (j < length a)%nat ->
  nth j a 1%nat = nth j o 1%nat \/ (nth j a 1%nat = 1%nat).
Proof.
  intros H; revert j; induction H as [|s s' a o Hs H IH]; intros [|j] Hj; cbn in *; try lia.
  apply IH; lia.
Qed.

Lemma w_expand_norm w o t x y n d : wmap_ok w o -> ax_sub (ns t) (fst o) -> ax_sub (ds t) (snd o) ->
  get (w_expand w t) x y n d = get t x y (wn w o n) (pull (w_dm w) d).
Proof.
  intros [H1 H2 H3 H4 H5 H6 _] Hn Hd.
  assert (Ln : (length (ns t) <= length (w_fm w))%nat).
  { destruct Hn as [->|Hn]; [cbn; lia|]. apply ax_le_length in Hn. lia. }
  assert (Ld : (length (ds t) <= length (w_dm w))%nat).
  { destruct Hd as [->|Hd]; [cbn; lia|]. apply ax_le_length in Hd. lia. }
  unfold get at 1. cbn [w_expand dexpand_dim dflip dexpand xs ys ns ds at_].
  unfold get; cbn [w_expand dexpand_dim dflip dexpand xs ys ns ds at_]. unfold get.
  rewrite !clamp_idem.
  f_equal.
  - unfold wn. apply clamp_ext_nth; [now rewrite !pull_length|]. intros j Hj.
    assert (J : (j < length (w_fm w))%nat) by lia.
    assert (JB : (nth j (w_fm w) 0 < w_nf w)%nat).
    { eapply Forall_forall in H3; [exact H3|]. now apply nth_In. }
    rewrite !nth_pull. destruct (Nat.ltb_spec j (length (w_fm w))); [|lia].
    destruct Hn as [Hn|Hn]; [rewrite Hn in Hj; cbn in Hj; lia|].
    destruct (ax_le_nth _ _ j Hn Hj) as [E|E].
    + f_equal. apply nth_flip_idx.
      * rewrite !clamp_length, !expand_shape_length; auto.
      * rewrite !nth_expand_shape_wh; auto.
      * rewrite !nth_clamp by now rewrite expand_shape_length.
        rewrite !nth_expand_shape_wh by auto. now rewrite E.
    + rewrite E. reflexivity.
  - now apply clamp_pull.
Qed.

Lemma index_of_In k wh : In k wh -> exists j, index_of k wh = Some j.
Proof.
  intros H. destruct (index_of k wh) eqn:E; eauto. apply index_of_None in E; contradiction.
Qed.

Lemma expand_shape_in o wh m i : (length o = length wh)%nat -> NoDup wh -> Forall (fun f => f < m)%nat wh ->
  In i (indices (expand_shape o wh m)) -> In (pull wh i) (indices o).
Proof.
  intros Hl Hn Hf Hi. apply In_indices in Hi. apply In_indices.
  assert (G : forall j, (j < length wh)%nat -> (nth (nth j wh 0%nat) i 0 < nth j o 1)%nat).
  { intros j Hj. rewrite <- (nth_expand_shape_wh o wh m j) by auto.
    assert (JB : (nth j wh 0 < m)%nat) by (eapply Forall_forall in Hf; [exact Hf|]; now apply nth_In).
    revert Hi JB. rewrite <- (expand_shape_length o wh m) at 2.
    generalize (expand_shape o wh m) (nth j wh 0%nat). clear.
    intros sh k Hi; revert k; induction Hi; intros [|k]; cbn; intros; try lia. apply IHHi; lia. }
  clear Hi Hf Hn. revert o Hl G. induction wh as [|w wh IH]; intros [|s o] Hl G; cbn in *; try discriminate; constructor.
  - apply (G 0%nat); lia.
  - apply IH; [lia|]. intros j Hj. apply (G (S j)); lia.
Qed.

Lemma flip_in sh fl i : In i (indices sh) -> In (flip_idx sh fl i) (indices sh).
Proof.
  unfold flip_idx. revert i; induction fl as [|k fl IH]; intros i Hi; cbn; auto.
  apply IH. unfold flip1. apply In_indices in Hi; apply In_indices.
  clear IH. revert k; induction Hi as [|a s i sh Ha Hi IHi]; intros [|k]; cbn; constructor; auto; lia.
Qed.

Lemma wn_in w o n : wmap_ok w o -> In n (indices (fst (w_out w o))) -> In (wn w o n) (indices (fst o)).
Proof.
  intros [H1 H2 H3 H4 H5 H6 _] Hn. unfold wn. cbn [w_out fst] in Hn.
  apply (expand_shape_in _ _ (w_nf w)); auto.
  apply flip_in. now rewrite clamp_in.
Qed.
Lemma wd_in w o d : wmap_ok w o -> In d (indices (snd (w_out w o))) -> In (pull (w_dm w) d) (indices (snd o)).
Proof.
  intros [H1 H2 H3 H4 H5 H6 _] Hn. apply (expand_shape_in _ _ (w_nd w)); auto.
Qed.

Lemma ax_le_expand a o wh m : ax_sub a o -> length o = length wh -> Forall (fun s => 1 <= s)%nat o ->
  ax_le (expand_shape a wh m) (expand_shape o wh m).
Proof.
  intros Ha Hl Hp. unfold expand_shape, ax_le. generalize (seq 0 m) as l.
  induction l as [|k l IH]; cbn; constructor; auto.
  destruct (index_of k wh) as [j|] eqn:E; auto. apply index_of_lt in E as [Hj _].
  assert (P : (1 <= nth j o 1)%nat) by (eapply Forall_forall in Hp; [exact Hp|]; apply nth_In; lia).
  destruct Ha as [->|Ha]; [right; destruct j; auto|].
  destruct (ax_le_nth _ _ j Ha) as [Ej|Ej]; auto. apply ax_le_length in Ha; lia.
Qed.
Lemma tst_expand w o sx sy t : wmap_ok w o -> tst sx sy o t -> tst sx sy (w_out w o) (w_expand w t).
Proof.
  intros Hw (A1 & A2 & A3 & A4 & A5). pose proof (w_expand_norm w o t) as N.
  destruct Hw as [H1 H2 H3 H4 H5 H6 H7].
  apply Forall_app in H7 as [P1 P2].
  repeat split; auto.
  - right. apply ax_le_expand; auto.
  - right. apply ax_le_expand; auto.
  - destruct A5 as [A5|(? & ? & ? & ?)].
    + left. intros x y n d. rewrite N; auto. split; auto. now apply Forall_app.
    + right. cbn. repeat split; auto; now rewrite !expand_shape_length.
Qed.
Lemma has_st_expand w o v : has_st v o -> has_st (w_expand w v) (w_out w o).
Proof. intros (H1 & H2 & H3 & H4). repeat split; cbn; auto; congruence. Qed.

Lemma isnil_expand w t : isnil t -> isnil (w_expand w t).
Proof. intros H x y n d. unfold w_expand, get at 1. cbn. unfold get at 1. cbn. apply H. Qed.
