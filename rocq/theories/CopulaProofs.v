From Coq Require Import Reals List Lra Lia.
From Coquelicot Require Import Coquelicot.
From Verif Require Import Prelude AnalyticSpec CopulaModel.
Import List ListNotations.
Local Open Scope R_scope.

Definition total (l : list R) : R := Rsum (fun x => x) l.
Definition prefix (l : list R) (i : nat) : R := total (firstn i l).

(** ---- lists ---- *)
Lemma gdiff_length {A} (sub : A -> A -> A) l : length (gdiff sub l) = (length l - 1)%nat.
Proof.
  induction l as [|a [|b r] IH]; [reflexivity|reflexivity|].
  change (gdiff sub (a :: b :: r)) with (sub b a :: gdiff sub (b :: r)). cbn [length] in *. rewrite IH. lia.
Qed.
Lemma gdiff_nth {A} (sub : A -> A -> A) l d : forall j, (S j < length l)%nat -> nth j (gdiff sub l) d = sub (nth (S j) l d) (nth j l d).
Proof.
  induction l as [|a [|b r] IH]; intros j Hj; [cbn in Hj; lia|cbn in Hj; lia|].
  change (gdiff sub (a :: b :: r)) with (sub b a :: gdiff sub (b :: r)).
  destruct j as [|j]; [reflexivity|]. cbn [nth]. rewrite IH by (cbn [length] in *; lia). reflexivity.
Qed.
Lemma rowminus_length r1 r2 : length r1 = length r2 -> length (rowminus r1 r2) = length r1.
Proof. intros H. unfold rowminus. rewrite map_length, combine_length. lia. Qed.
Lemma rowminus_nth r1 r2 j : length r1 = length r2 -> nth j (rowminus r1 r2) 0 = nth j r1 0 - nth j r2 0.
Proof.
  revert r2 j. induction r1 as [|a r1 IH]; intros [|b r2] j H; try discriminate; cbn.
  - destruct j; lra.
  - destruct j as [|j]; [reflexivity|]. apply IH. now injection H.
Qed.
Lemma Rsum_telescope (G : nat -> R) n : Rsum (fun j => G (S j) - G j) (seq 0 n) = G n - G 0%nat.
Proof.
  induction n as [|n IH]; [cbn [seq]; rewrite Rsum_nil; lra|].
  rewrite seq_S, Rsum_app, Rsum_cons, Rsum_nil, IH. cbn. lra.
Qed.
Lemma Rsum_nth (l : list R) : Rsum (fun x => x) l = Rsum (fun j => nth j l 0) (seq 0 (length l)).
Proof.
  induction l as [|a l IH]; [reflexivity|]. cbn [length seq]. rewrite !Rsum_cons, IH, <- seq_shift, Rsum_map. reflexivity.
Qed.
Lemma Rsum_nth_gen {A} (f : A -> R) (l : list A) d : Rsum f l = Rsum (fun j => f (nth j l d)) (seq 0 (length l)).
Proof.
  induction l as [|a l IH]; [reflexivity|]. cbn [length seq]. rewrite !Rsum_cons, IH, <- seq_shift, Rsum_map. reflexivity.
Qed.

(** ---- cumulative sums ---- *)
Lemma cumsum_from_length acc l : length (cumsum_from acc l) = length l.
Proof. revert acc. induction l; intros; cbn; congruence. Qed.
Lemma cumsum_from_nth acc l : forall i, (i < length l)%nat -> nth i (cumsum_from acc l) 0 = acc + prefix l (S i).
Proof.
  revert acc. induction l as [|a l IH]; intros acc i Hi; [cbn in Hi; lia|].
  destruct i as [|i]; cbn [cumsum_from nth].
  - unfold prefix, total. cbn. unfold Rsum; cbn. lra.
  - rewrite IH by (cbn in Hi; lia). unfold prefix, total. cbn [firstn]. rewrite (Rsum_cons (fun x => x) a). lra.
Qed.
Lemma last_nth {A} (l : list A) d : last l d = nth (length l - 1) l d.
Proof.
  induction l as [|a [|b r] IH]; [reflexivity|reflexivity|].
  change (last (a :: b :: r) d) with (last (b :: r) d). rewrite IH. cbn [length nth].
  replace (S (length r) - 1)%nat with (length r) by lia. replace (S (S (length r)) - 1)%nat with (S (length r)) by lia. reflexivity.
Qed.
Lemma prefix_all l : prefix l (length l) = total l.
Proof. unfold prefix. now rewrite firstn_all. Qed.
Lemma cumsum_last l : l <> [] -> last (cumsum l) 0 = total l.
Proof.
  intros H. rewrite last_nth. unfold cumsum. rewrite cumsum_from_length.
  assert (0 < length l)%nat by (destruct l; [congruence|cbn; lia]).
  rewrite cumsum_from_nth by lia. replace (S (length l - 1)) with (length l) by lia. rewrite prefix_all. lra.
Qed.
Lemma normcum_length l : length (normcum l) = length l.
Proof. unfold normcum. rewrite map_length. apply cumsum_from_length. Qed.
Lemma normcum_nth l i : (i < length l)%nat -> nth i (normcum l) 0 = prefix l (S i) / total l.
Proof.
  intros H. assert (l <> []) by (destruct l; [cbn in H; lia|congruence]).
  unfold normcum. rewrite (nth_indep _ 0 (0 / last (cumsum l) 0)) by (rewrite map_length; unfold cumsum; rewrite cumsum_from_length; lia).
  rewrite (map_nth (fun a => a / last (cumsum l) 0)). rewrite cumsum_last by assumption.
  unfold cumsum. rewrite cumsum_from_nth by assumption. f_equal. lra.
Qed.
(** the grid coordinate i: 0 for i = 0, else normalised cumulative sum *)
Definition coord (l : list R) (i : nat) : R := prefix l i / total l.
Lemma prefix_S l i : (i < length l)%nat -> prefix l (S i) = prefix l i + nth i l 0.
Proof.
  revert i. induction l as [|a l IH]; intros i Hi; [cbn in Hi; lia|].
  unfold prefix, total in *. destruct i as [|i].
  - cbn. unfold Rsum; cbn. lra.
  - change (firstn (S (S i)) (a :: l)) with (a :: firstn (S i) l). change (firstn (S i) (a :: l)) with (a :: firstn i l).
    rewrite !Rsum_cons, IH by (cbn in Hi; lia). cbn [nth]. lra.
Qed.

(** ---- the joint ---- *)
Definition G (C : R -> R -> R) (px py : list R) (i j : nat) : R :=
  match i, j with S _, S _ => C (coord px i) (coord py j) | _, _ => 0 end.
Section J.
Variables (C : R -> R -> R) (px py : list R).
Let x := normcum px.
Let y := normcum py.
Let F := repeat 0 (S (length y)) :: map (fun row => 0 :: row) (map (fun u => map (fun v => C u v) y) x).
Lemma F_length : length F = S (length px).
Proof. unfold F. cbn. rewrite !map_length. unfold x. now rewrite normcum_length. Qed.
Lemma F_row i : (i <= length px)%nat -> length (nth i F []) = S (length py) /\
  forall j, (j <= length py)%nat -> nth j (nth i F []) 0 = G C px py i j.
Proof.
  intros Hi. destruct i as [|i].
  - unfold F; cbn [nth]. split; [rewrite repeat_length; unfold y; now rewrite normcum_length|].
    intros j _. cbn [G]. apply nth_repeat.
  - assert (E : nth (S i) F [] = 0 :: map (fun v => C (nth i x 0) v) y).
    { unfold F; cbn [nth]. rewrite map_map.
      rewrite (nth_indep _ [] ((fun u => 0 :: map (fun v => C u v) y) 0)) by (rewrite map_length; unfold x; rewrite normcum_length; lia).
      now rewrite (map_nth (fun u => 0 :: map (fun v => C u v) y)). }
    rewrite E. split; [cbn; rewrite map_length; unfold y; now rewrite normcum_length|].
    intros [|j] Hj; [reflexivity|]. cbn [nth].
    rewrite (nth_indep _ 0 ((fun v => C (nth i x 0) v) 0)) by (rewrite map_length; unfold y; rewrite normcum_length; lia).
    rewrite (map_nth (fun v => C (nth i x 0) v)). unfold x, y. rewrite !normcum_nth by lia. reflexivity.
Qed.
Lemma joint_eq : joint C px py = gdiff rowminus (map diff1 F).
Proof. reflexivity. Qed.
Lemma joint_length : length (joint C px py) = length px.
Proof. rewrite joint_eq, gdiff_length, map_length, F_length. lia. Qed.
Lemma D_row i : (i <= length px)%nat -> length (nth i (map diff1 F) []) = length py /\
  forall j, (j < length py)%nat -> nth j (nth i (map diff1 F) []) 0 = G C px py i (S j) - G C px py i j.
Proof.
  intros Hi. change (@nil R) with (diff1 []) at 1 2. rewrite !(map_nth diff1).
  destruct (F_row i Hi) as [HL HN]. unfold diff1. split; [rewrite gdiff_length; lia|].
  intros j Hj. rewrite gdiff_nth by lia. rewrite !HN by lia. reflexivity.
Qed.
Lemma joint_row i : (i < length px)%nat -> length (nth i (joint C px py) []) = length py /\
  forall j, (j < length py)%nat -> nth j (nth i (joint C px py) []) 0 =
    (G C px py (S i) (S j) - G C px py (S i) j) - (G C px py i (S j) - G C px py i j).
Proof.
  intros Hi. rewrite joint_eq. rewrite gdiff_nth by (rewrite map_length, F_length; lia).
  destruct (D_row i ltac:(lia)) as [L0 N0]. destruct (D_row (S i) ltac:(lia)) as [L1 N1].
  split; [rewrite rowminus_length; congruence|].
  intros j Hj. rewrite rowminus_nth by congruence. rewrite N0, N1 by assumption. reflexivity.
Qed.

Hypothesis Hx : total px <> 0.
Hypothesis Hy : total py <> 0.
Lemma coord_end l : total l <> 0 -> coord l (length l) = 1.
Proof. intros H. unfold coord. rewrite prefix_all. field. exact H. Qed.
Lemma nonempty l : total l <> 0 -> (0 < length l)%nat.
Proof. intros H. destruct l; [exfalso; apply H; reflexivity|cbn; lia]. Qed.

Lemma row_margin i : (i < length px)%nat -> (forall k, (1 <= k <= length px)%nat -> C (coord px k) 1 = coord px k) ->
  Rsum (fun v => v) (nth i (joint C px py) []) = nth i px 0 / total px.
Proof.
  intros Hi HC. destruct (joint_row i Hi) as [L N]. rewrite Rsum_nth, L.
  rewrite (Rsum_ext _ (fun j => (G C px py (S i) (S j) - G C px py (S i) j) - (G C px py i (S j) - G C px py i j))).
  2:{ intros j Hj. apply in_seq in Hj. apply N; lia. }
  rewrite Rsum_minus, !Rsum_telescope.
  pose proof (nonempty py Hy) as Hpy.
  assert (E : forall k, (k <= length px)%nat -> G C px py k (length py) = coord px k).
  { intros [|k] Hk; [cbn; unfold coord, prefix, total; cbn; unfold Rsum; cbn; lra|].
    unfold G. destruct (length py) eqn:El; [lia|]. rewrite <- El, coord_end by exact Hy. apply HC. lia. }
  assert (E0 : forall k, G C px py k 0 = 0) by (intros [|k]; reflexivity).
  rewrite !E, !E0 by lia. unfold coord. rewrite prefix_S by exact Hi. field. exact Hx.
Qed.
Lemma col_margin j : (j < length py)%nat -> (forall k, (1 <= k <= length py)%nat -> C 1 (coord py k) = coord py k) ->
  Rsum (fun row => nth j row 0) (joint C px py) = nth j py 0 / total py.
Proof.
  intros Hj HC. rewrite (Rsum_nth_gen _ _ []), joint_length.
  rewrite (Rsum_ext _ (fun i => (G C px py (S i) (S j) - G C px py (S i) j) - (G C px py i (S j) - G C px py i j))).
  2:{ intros i Hi. apply in_seq in Hi. apply (proj2 (joint_row i ltac:(lia))); exact Hj. }
  rewrite (Rsum_telescope (fun i => G C px py i (S j) - G C px py i j)).
  pose proof (nonempty px Hx) as Hpx.
  assert (E : forall k, (k <= length py)%nat -> G C px py (length px) k = coord py k).
  { intros [|k] Hk; [destruct (length px); cbn; unfold coord, prefix, total; cbn; unfold Rsum; cbn; lra|].
    unfold G. destruct (length px) eqn:El; [lia|]. rewrite <- El, coord_end by exact Hx. apply HC. lia. }
  rewrite !E by lia. cbn [G]. unfold coord. rewrite prefix_S by exact Hj. field. exact Hy.
Qed.
Lemma joint_total : (forall k, (1 <= k <= length px)%nat -> C (coord px k) 1 = coord px k) ->
  Rsum (fun row => Rsum (fun v => v) row) (joint C px py) = 1.
Proof.
  intros HC. rewrite (Rsum_nth_gen _ _ []), joint_length.
  rewrite (Rsum_ext _ (fun i => nth i px 0 / total px)).
  2:{ intros i Hi. apply in_seq in Hi. apply row_margin; [lia|exact HC]. }
  unfold Rdiv. rewrite Rsum_scal_r, <- Rsum_nth. apply Rinv_r. exact Hx.
Qed.
Lemma joint_nonneg :
  (forall i j, (i < length px)%nat -> (j < length py)%nat ->
     0 <= (G C px py (S i) (S j) - G C px py (S i) j) - (G C px py i (S j) - G C px py i j)) ->
  forall i j, (i < length px)%nat -> (j < length py)%nat -> 0 <= nth j (nth i (joint C px py) []) 0.
Proof. intros H i j Hi Hj. rewrite (proj2 (joint_row i Hi)) by exact Hj. now apply H. Qed.
End J.

(** ---- coordinates of non-negative marginals ---- *)
Definition good (l : list R) : Prop := (forall a, In a l -> 0 <= a) /\ 0 < total l.
Lemma prefix_nonneg l i : (forall a, In a l -> 0 <= a) -> 0 <= prefix l i.
Proof.
  intros H. unfold prefix, total. apply Rsum_nonneg. intros a Ha. apply H.
  rewrite <- (firstn_skipn i l). apply in_or_app. now left.
Qed.
Lemma prefix_le_total l i : (forall a, In a l -> 0 <= a) -> prefix l i <= total l.
Proof.
  intros H. unfold prefix, total. rewrite <- (firstn_skipn i l) at 2. rewrite Rsum_app.
  assert (0 <= Rsum (fun v => v) (skipn i l)); [|lra].
  apply Rsum_nonneg. intros a Ha. apply H. rewrite <- (firstn_skipn i l). apply in_or_app. now right.
Qed.
Lemma coord_range l i : good l -> 0 <= coord l i <= 1.
Proof.
  intros [H Ht]. unfold coord, Rdiv. pose proof (prefix_nonneg l i H). pose proof (prefix_le_total l i H).
  assert (0 < / total l) by now apply Rinv_0_lt_compat. split; [apply Rmult_le_pos; lra|].
  apply Rmult_le_reg_r with (total l); [assumption|]. rewrite Rmult_assoc, Rinv_l by lra. lra.
Qed.
Lemma coord_mono l i : good l -> (i < length l)%nat -> coord l i <= coord l (S i).
Proof.
  intros [H Ht] Hi. unfold coord. rewrite prefix_S by exact Hi. unfold Rdiv.
  apply Rmult_le_compat_r; [apply Rlt_le, Rinv_0_lt_compat; exact Ht|].
  assert (0 <= nth i l 0) by (apply H, nth_In; exact Hi). lra.
Qed.
Lemma coord_0 l : coord l 0 = 0.
Proof. unfold coord, prefix, total. cbn. unfold Rsum; cbn. lra. Qed.

(** A function with the boundary values of a copula, and 2-increasing. *)
Definition grounded (C : R -> R -> R) : Prop := forall u, 0 <= u <= 1 -> C 0 u = 0 /\ C u 0 = 0.
Definition uniform_margins (C : R -> R -> R) : Prop := forall u, 0 <= u <= 1 -> C u 1 = u /\ C 1 u = u.
Definition two_increasing (C : R -> R -> R) : Prop := forall u1 u2 v1 v2,
  0 <= u1 <= u2 -> u2 <= 1 -> 0 <= v1 <= v2 -> v2 <= 1 ->
  0 <= (C u2 v2 - C u2 v1) - (C u1 v2 - C u1 v1).
Definition is_copula C := grounded C /\ uniform_margins C /\ two_increasing C.

Lemma G_grounded C px py i j : grounded C -> good px -> good py -> G C px py i j = C (coord px i) (coord py j).
Proof.
  intros HG Hx Hy. destruct i as [|i]; [|destruct j as [|j]]; cbn [G]; try reflexivity.
  - rewrite coord_0. symmetry. apply HG. now apply coord_range.
  - rewrite (coord_0 py). symmetry. apply HG. now apply coord_range.
Qed.
Theorem copula_joint C px py : uniform_margins C -> good px -> good py ->
  let J := joint C px py in
  length J = length px /\
  (forall i, (i < length px)%nat -> length (nth i J []) = length py /\ total (nth i J []) = nth i px 0 / total px) /\
  (forall j, (j < length py)%nat -> Rsum (fun row => nth j row 0) J = nth j py 0 / total py) /\
  Rsum total J = 1.
Proof.
  intros HU Hx Hy J. assert (Tx : total px <> 0) by (destruct Hx; lra). assert (Ty : total py <> 0) by (destruct Hy; lra).
  assert (HC : forall k, (1 <= k <= length px)%nat -> C (coord px k) 1 = coord px k) by (intros; apply HU; now apply coord_range).
  assert (HC' : forall k, (1 <= k <= length py)%nat -> C 1 (coord py k) = coord py k) by (intros; apply HU; now apply coord_range).
  split; [apply joint_length|]. split.
  - intros i Hi. split; [now apply joint_row|]. apply row_margin; auto.
  - split; [intros; apply col_margin; auto|]. apply joint_total; auto.
Qed.
Theorem copula_joint_nonneg C px py : grounded C -> two_increasing C -> good px -> good py ->
  forall i j, (i < length px)%nat -> (j < length py)%nat -> 0 <= nth j (nth i (joint C px py) []) 0.
Proof.
  intros HG HT Hx Hy. apply joint_nonneg. intros i j Hi Hj. rewrite !G_grounded by assumption.
  apply HT; try (split; [apply coord_range; assumption|apply coord_mono; assumption]); apply coord_range; assumption.
Qed.

(** The distribution function of the joint: partial sums telescope twice. *)
Lemma joint_cdf C px py i j : (i < length px)%nat -> (j < length py)%nat ->
  Rsum (fun i' => Rsum (fun j' => nth j' (nth i' (joint C px py) []) 0) (seq 0 (S j))) (seq 0 (S i))
  = C (coord px (S i)) (coord py (S j)).
Proof.
  intros Hi Hj.
  rewrite (Rsum_ext _ (fun i' => G C px py (S i') (S j) - G C px py i' (S j))).
  - rewrite (Rsum_telescope (fun k => G C px py k (S j))). cbn [G]. lra.
  - intros i' Hin. apply in_seq in Hin.
    rewrite (Rsum_ext _ (fun j' => (fun k => G C px py (S i') k - G C px py i' k) (S j') - (fun k => G C px py (S i') k - G C px py i' k) j')).
    + rewrite (Rsum_telescope (fun k => G C px py (S i') k - G C px py i' k)). destruct i'; cbn [G]; lra.
    + intros j' Hin'. apply in_seq in Hin'. rewrite (proj2 (joint_row C px py i' ltac:(lia))) by lia. lra.
Qed.
