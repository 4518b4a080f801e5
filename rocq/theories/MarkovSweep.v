From Coq Require Import Reals List Lra Lia Permutation.
From Verif Require Import Prelude AnalyticSpec MarkovModel MarkovSpec.
Import List ListNotations.
Local Open Scope R_scope.

(** ---- in-place sweeps are synchronous steps ---- *)
Section Gen.
Context {C : Type}.
Variable eqb : C -> C -> bool.
Hypothesis eqb_spec : forall a b, eqb a b = true <-> a = b.
Variable upd : (C -> R) -> C -> (C -> R).
Variable K : C -> C -> R.
Hypothesis upd_spec : forall M c d, upd M c d = M d + M c * (K c d - ind (eqb d c)).

Lemma gen_fold l : forall M d,
  NoDup l -> (forall l1 c l2, l = l1 ++ c :: l2 -> forall d', In d' l2 -> K c d' = 0) ->
  fold_left upd l M d = M d + Rsum (fun c => M c * (K c d - ind (eqb d c))) l.
Proof.
  induction l as [|c l IH]; intros M d Hn Hk; cbn [fold_left]; [rewrite Rsum_nil; lra|].
  inversion Hn; subst. rewrite IH; [|assumption|].
  - rewrite upd_spec, Rsum_cons.
    replace (Rsum (fun c0 => upd M c c0 * (K c0 d - ind (eqb d c0))) l) with
            (Rsum (fun c0 => M c0 * (K c0 d - ind (eqb d c0))) l); [lra|].
    apply Rsum_ext. intros c' Hc'. f_equal. rewrite upd_spec.
    rewrite (Hk [] c l eq_refl c' Hc').
    assert (Hne : eqb c' c = false).
    { destruct (eqb c' c) eqn:E; [|reflexivity]. apply eqb_spec in E. subst. contradiction. }
    rewrite Hne. cbn. lra.
  - intros l1 c' l2 E. apply (Hk (c :: l1) c' l2). now rewrite E.
Qed.
Lemma Rsum_ind_in l : forall (f : C -> R) d, NoDup l -> In d l -> Rsum (fun c => f c * ind (eqb d c)) l = f d.
Proof.
  induction l as [|c l IH]; intros f d Hn Hi; [contradiction|]. inversion Hn; subst. rewrite Rsum_cons.
  destruct Hi as [->|Hi].
  - rewrite (proj2 (eqb_spec d d) eq_refl). cbn [ind]. rewrite Rsum_zero; [lra|].
    intros c Hc. destruct (eqb d c) eqn:E; [|cbn; lra]. apply eqb_spec in E; subst; contradiction.
  - rewrite IH by assumption. destruct (eqb d c) eqn:E; [apply eqb_spec in E; subst; contradiction|]. cbn; lra.
Qed.
Lemma gen_sync l M d : NoDup l -> In d l ->
  (forall l1 c l2, l = l1 ++ c :: l2 -> forall d', In d' l2 -> K c d' = 0) ->
  fold_left upd l M d = Rsum (fun c => M c * K c d) l.
Proof.
  intros Hn Hi Hk. rewrite gen_fold by assumption.
  rewrite (Rsum_ext _ (fun c => M c * K c d - M c * ind (eqb d c))) by (intros; lra).
  rewrite Rsum_minus, Rsum_ind_in by assumption. lra.
Qed.
End Gen.

Lemma eq2_spec a b : eq2 a b = true <-> a = b.
Proof.
  unfold eq2. destruct a, b; cbn. rewrite andb_true_iff, !Nat.eqb_eq. split; [intros [-> ->]; reflexivity|now intros [= -> ->]].
Qed.

Section M.
Variables (n : nat) (skew : nat -> nat -> R) (s1 s2 : R).
Definition Km (c d : nat * nat) : R := mat_kernel n skew s1 s2 c d.
Lemma mm_upd_spec M c d : mm_cell n skew s1 s2 M c d = M d + M c * (Km c d - ind (eq2 d c)).
Proof.
  destruct c as [x y]. unfold mm_cell, Km, mat_kernel, addto. cbn [fst snd].
  fold (eq2 d (x, y)). unfold eq2; cbn [fst snd].
  repeat match goal with |- context [if ?b then _ else _] => destruct b end; cbn [ind]; ring.
Qed.

(** Lexicographically descending order of the visits. *)
Definition desc : list nat := map (fun i => (n - i - 1)%nat) (seq 0 n).
Lemma mm_cells_eq : mm_cells n = list_prod desc desc.
Proof.
  unfold mm_cells, desc.
  assert (H : forall l1 l2, flat_map (fun idx => map (fun jdx => ((n - idx - 1)%nat, (n - jdx - 1)%nat)) l2) l1 =
    list_prod (map (fun i => (n - i - 1)%nat) l1) (map (fun i => (n - i - 1)%nat) l2)); [|apply H].
  intros l1 l2. induction l1 as [|i l1 IH]; [reflexivity|].
  cbn [flat_map map list_prod]. rewrite IH. f_equal. now rewrite map_map.
Qed.
Lemma in_desc x : In x desc <-> (x < n)%nat.
Proof.
  unfold desc. rewrite in_map_iff. split.
  - intros (i & <- & Hi). apply in_seq in Hi. lia.
  - intros H. exists (n - x - 1)%nat. rewrite in_seq. lia.
Qed.
Lemma desc_sorted l1 a l2 : desc = l1 ++ a :: l2 -> forall b, In b l2 -> (b < a)%nat.
Proof.
  intros E b Hb.
  apply in_split in Hb. destruct Hb as (u & v & ->).
  assert (Ha : nth_error desc (length l1) = Some a) by (rewrite E, nth_error_app2, Nat.sub_diag by lia; reflexivity).
  assert (Hb : nth_error desc (length l1 + S (length u)) = Some b).
  { rewrite E, nth_error_app2 by lia. replace (length l1 + S (length u) - length l1)%nat with (S (length u)) by lia.
    cbn. rewrite nth_error_app2, Nat.sub_diag by lia. reflexivity. }
  unfold desc in Ha, Hb. rewrite nth_error_map in Ha, Hb.
  destruct (nth_error (seq 0 n) (length l1)) eqn:E1; [|discriminate].
  destruct (nth_error (seq 0 n) (length l1 + S (length u))) eqn:E2; [|discriminate].
  cbn in Ha, Hb. injection Ha as <-. injection Hb as <-.
  assert (L1 := nth_error_Some (seq 0 n) (length l1)). rewrite E1 in L1. rewrite seq_length in L1.
  assert (L2 := nth_error_Some (seq 0 n) (length l1 + S (length u))). rewrite E2 in L2. rewrite seq_length in L2.
  assert (length l1 < n)%nat by (apply L1; congruence). assert (length l1 + S (length u) < n)%nat by (apply L2; congruence).
  rewrite (nth_error_nth' _ 0%nat) in E1 by (rewrite seq_length; lia). rewrite seq_nth in E1 by lia.
  rewrite (nth_error_nth' _ 0%nat) in E2 by (rewrite seq_length; lia). rewrite seq_nth in E2 by lia.
  injection E1 as <-. injection E2 as <-. lia.
Qed.
Lemma NoDup_map_in {A B} (f : A -> B) l : NoDup l -> (forall a b, In a l -> In b l -> f a = f b -> a = b) -> NoDup (map f l).
Proof.
  induction 1 as [|a l Ha Hl IH]; intros H; cbn; constructor.
  - rewrite in_map_iff. intros (b & E & Hb). apply Ha. rewrite (H a b); auto; [now left|now right].
  - apply IH. intros; apply H; auto; now right.
Qed.
Lemma NoDup_app_in {A} (l l' : list A) : NoDup l -> NoDup l' -> (forall x, In x l -> In x l' -> False) -> NoDup (l ++ l').
Proof.
  induction 1 as [|a l Ha Hl IH]; intros Hl' H; cbn; [assumption|]. constructor.
  - rewrite in_app_iff. intros [X|X]; [auto|]. apply (H a); [now left|exact X].
  - apply IH; auto. intros x X1 X2. apply (H x); [now right|exact X2].
Qed.
Lemma NoDup_desc : NoDup desc.
Proof.
  unfold desc. apply NoDup_map_in; [apply seq_NoDup|].
  intros a b Ha Hb E. apply in_seq in Ha, Hb. lia.
Qed.
Lemma NoDup_list_prod {A B} (l : list A) (l' : list B) : NoDup l -> NoDup l' -> NoDup (list_prod l l').
Proof.
  induction 1 as [|a l Ha Hl IH]; intros Hl'; cbn [list_prod]; [constructor|].
  apply NoDup_app_in.
  - apply NoDup_map_in; [assumption|]. intros u v _ _ [= ->]. reflexivity.
  - now apply IH.
  - intros [u v] H1 H2. apply in_map_iff in H1. destruct H1 as (w & [= <- <-] & _).
    apply in_prod_iff in H2. tauto.
Qed.
(** What comes after (x, y) in the sweep is lexicographically smaller. *)
Lemma list_prod_sorted (l l' : list nat) :
  (forall l1 a l2, l = l1 ++ a :: l2 -> forall b, In b l2 -> (b < a)%nat) ->
  (forall l1 a l2, l' = l1 ++ a :: l2 -> forall b, In b l2 -> (b < a)%nat) ->
  forall l1 c l2, list_prod l l' = l1 ++ c :: l2 -> forall d, In d l2 ->
  (fst d < fst c \/ (fst d = fst c /\ snd d < snd c))%nat.
Proof.
  intros Hl Hl'. induction l as [|a l IH]; intros l1 c l2 E d Hd; [destruct l1; discriminate|].
  cbn [list_prod] in E.
  apply app_eq_app in E. destruct E as (m & [[E1 E2]|[E1 E2]]).
  - (* c among the first row, or the row ended exactly *)
    destruct m as [|c' m].
    + cbn in E2. rewrite app_nil_r in E1. symmetry in E2.
      apply (IH (fun l3 a0 l4 E0 => Hl (a :: l3) a0 l4 (f_equal (cons a) E0)) [] c l2 E2 d Hd).
    + cbn in E2. injection E2 as <- E2.
      subst l2. apply in_app_iff in Hd. destruct Hd as [Hd|Hd].
      * right. assert (Hc : map (fun y => (a, y)) l' = l1 ++ c :: m) by exact E1.
        apply map_eq_app in Hc. destruct Hc as (u & v & Eu & Eu1 & Ev).
        destruct v as [|y v]; [discriminate|]. cbn in Ev. injection Ev as <- <-.
        apply in_map_iff in Hd. destruct Hd as (z & <- & Hz). cbn. split; [reflexivity|].
        eapply Hl'; eauto.
      * left. assert (Hc : In c (map (fun y => (a, y)) l')) by (rewrite E1; apply in_or_app; right; now left).
        apply in_map_iff in Hc. destruct Hc as (y & <- & _). cbn.
        destruct d as [dx dy]. apply in_prod_iff in Hd. cbn. apply (Hl [] a l eq_refl). tauto.
  - apply (IH (fun l3 a0 l4 E0 => Hl (a :: l3) a0 l4 (f_equal (cons a) E0)) m c l2 E2 d Hd).
Qed.
Lemma Rsum_perm {X} (f : X -> R) (l l' : list X) : NoDup l -> NoDup l' -> (forall x, In x l <-> In x l') -> Rsum f l = Rsum f l'.
Proof.
  intros H1 H2 H. assert (P : Permutation l l') by now apply NoDup_Permutation.
  clear H1 H2 H. induction P; rewrite ?Rsum_cons; lra.
Qed.

Lemma mm_sweep_sync M d : In d (square n) -> mm_sweep n skew s1 s2 M d = mat_step n skew s1 s2 M d.
Proof.
  intros Hd. unfold mm_sweep.
  assert (Hin : forall c, In c (mm_cells n) <-> In c (square n)).
  { intros [x y]. rewrite mm_cells_eq. unfold square. rewrite !in_prod_iff, !in_desc, !in_seq. lia. }
  assert (Hnd : NoDup (mm_cells n)) by (rewrite mm_cells_eq; apply NoDup_list_prod; apply NoDup_desc).
  rewrite (gen_sync eq2 eq2_spec _ Km mm_upd_spec); [|exact Hnd|now apply Hin|].
  - unfold mat_step, Km. apply Rsum_perm; [exact Hnd| |exact Hin]. apply NoDup_list_prod; apply seq_NoDup.
  - intros l1 [x y] l2 E [u v] Hu.
    assert (Hc : (x < n /\ y < n)%nat).
    { assert (In (x, y) (mm_cells n)) by (rewrite E; apply in_or_app; right; now left).
      apply Hin in H. unfold square in H. rewrite in_prod_iff, !in_seq in H. lia. }
    rewrite mm_cells_eq in E.
    pose proof (list_prod_sorted desc desc desc_sorted desc_sorted l1 (x, y) l2 E (u, v) Hu) as Hlt. cbn in Hlt.
    unfold Km, mat_kernel.
    replace (eq2 (u, v) (Nat.min (x + 1) (n - 1), y)) with false;
    [replace (eq2 (u, v) (x, Nat.min (y + 1) (n - 1))) with false; [replace (eq2 (u, v) (x, y)) with false; [cbn; ring|]|]|];
    symmetry; match goal with |- ?b = false => destruct b eqn:Eb; [|reflexivity] end;
    apply eq2_spec in Eb; injection Eb; intros; subst; lia.
Qed.
Lemma mat_step_ext M M' d : (forall c, In c (square n) -> M c = M' c) -> mat_step n skew s1 s2 M d = mat_step n skew s1 s2 M' d.
Proof. intros H. apply Rsum_ext. intros c Hc. now rewrite H. Qed.
Lemma mm_run_sync t d : In d (square n) ->
  mm_run n skew s1 s2 t d = iterate (mat_step n skew s1 s2) t (fun c => ind (eq2 c (0, 0)%nat)) d.
Proof.
  revert d. induction t as [|t IH]; intros d Hd.
  - cbn. unfold mm_init, eq2; cbn. destruct (_ && _)%bool; reflexivity.
  - unfold mm_run, iterate; cbn [Nat.iter nat_rect]. rewrite mm_sweep_sync by exact Hd. apply mat_step_ext. exact IH.
Qed.

(** ---- conservation ---- *)
Lemma Rsum_ind (l : list (nat * nat)) c : NoDup l -> In c l -> Rsum (fun d => ind (eq2 d c)) l = 1.
Proof.
  induction 1 as [|a l Ha Hl IH]; intros Hi; [contradiction|]. rewrite Rsum_cons. destruct Hi as [->|Hi].
  - rewrite (proj2 (eq2_spec c c) eq_refl). cbn [ind]. rewrite Rsum_zero; [lra|].
    intros d Hd. destruct (eq2 d c) eqn:E; [apply eq2_spec in E; subst; contradiction|reflexivity].
  - rewrite IH by exact Hi. destruct (eq2 a c) eqn:E; [apply eq2_spec in E; subst; contradiction|cbn; lra].
Qed.
Lemma in_square x y : In (x, y) (square n) <-> (x < n /\ y < n)%nat.
Proof. unfold square. rewrite in_prod_iff, !in_seq. lia. Qed.
Lemma mat_kernel_total c : In c (square n) -> Rsum (mat_kernel n skew s1 s2 c) (square n) = 1.
Proof.
  destruct c as [x y]. intros Hc. apply in_square in Hc.
  assert (Hnd : NoDup (square n)) by (apply NoDup_list_prod; apply seq_NoDup).
  unfold mat_kernel. rewrite !Rsum_plus, !Rsum_scal.
  rewrite !Rsum_ind; try exact Hnd; try (apply in_square; lia). lra.
Qed.
Lemma mat_step_total M : Rsum (mat_step n skew s1 s2 M) (square n) = Rsum M (square n).
Proof.
  unfold mat_step. rewrite Rsum_swap. apply Rsum_ext. intros c Hc.
  rewrite Rsum_scal, (mat_kernel_total c Hc). lra.
Qed.
Lemma mm_run_total t : (0 < n)%nat -> Rsum (mm_run n skew s1 s2 t) (square n) = 1.
Proof.
  intros Hn. induction t as [|t IH].
  - rewrite (Rsum_ext _ (fun d => ind (eq2 d (0, 0)%nat))).
    + apply Rsum_ind; [apply NoDup_list_prod; apply seq_NoDup|apply in_square; lia].
    + intros [x y] _. cbn. unfold mm_init, eq2; cbn. now destruct (_ && _)%bool.
  - rewrite <- IH. rewrite <- (mat_step_total (mm_run n skew s1 s2 t)). apply Rsum_ext. intros d Hd.
    unfold mm_run; cbn [Nat.iter nat_rect]. now apply mm_sweep_sync.
Qed.
Lemma mm_run_nonneg t : 0 <= s1 -> 0 <= s2 ->
  (forall x y, (x < n)%nat -> (y < n)%nat -> 0 <= skew x y) ->
  (forall x y, (x < n)%nat -> (y < n)%nat -> s1 * skew x y + s2 * skew y x <= 1) ->
  forall d, In d (square n) -> 0 <= mm_run n skew s1 s2 t d.
Proof.
  intros H1 H2 Hs Hle. induction t as [|t IH]; intros d Hd.
  - cbn. unfold mm_init. destruct (_ && _)%bool; lra.
  - unfold mm_run; cbn [Nat.iter nat_rect]. rewrite mm_sweep_sync by exact Hd. unfold mat_step.
    apply Rsum_nonneg. intros [x y] Hc. apply Rmult_le_pos; [now apply IH|].
    apply in_square in Hc. destruct Hc as [Hx Hy]. unfold mat_kernel.
    pose proof (Hs x y Hx Hy). pose proof (Hs y x Hy Hx). pose proof (Hle x y Hx Hy).
    assert (Hi : forall b, 0 <= ind b <= 1) by (intros []; cbn; lra).
    assert (0 <= s1 * skew x y) by now apply Rmult_le_pos. assert (0 <= s2 * skew y x) by now apply Rmult_le_pos.
    repeat apply Rplus_le_le_0_compat; apply Rmult_le_pos; try apply Hi; lra.
Qed.
End M.

Section V.
Variables (n : nat) (skew : nat -> R) (s1 s2 : R).
Hypothesis Hn : (0 < n)%nat.
Let L := (2 * n - 1)%nat.
Let g1 x := s1 * skew x.
Let g2 x := s2 * skew (2 * n - 2 - x)%nat.

Definition vcarry (M : nat -> R) (k : nat) : R := match k with O => 0 | S k' => M k' * g1 k' end.
Definition vflow (M : nat -> R) (d x : nat) : R :=
  M x * (g1 x * ind (Nat.eqb d (S x)) + g2 x * ind (Nat.eqb d (x - 1)) - (g1 x + g2 x) * ind (Nat.eqb d x)).
Lemma ind_eqb_ne a b : a <> b -> ind (Nat.eqb a b) = 0.
Proof. intros H. apply Nat.eqb_neq in H. now rewrite H. Qed.
Lemma ind_eqb_eq a b : a = b -> ind (Nat.eqb a b) = 1.
Proof. intros ->. now rewrite Nat.eqb_refl. Qed.

Lemma vflow_at k M : Rsum (vflow M k) (seq 0 k) = vcarry M k.
Proof.
  destruct k as [|k]; [reflexivity|]. rewrite seq_S, Rsum_app, Rsum_cons, Rsum_nil. cbn [Nat.add vcarry].
  rewrite Rsum_zero.
  - unfold vflow. rewrite ind_eqb_eq, !ind_eqb_ne by lia. lra.
  - intros x Hx. apply in_seq in Hx. unfold vflow. rewrite !ind_eqb_ne by lia. lra.
Qed.
Lemma mv_fold k M : exists A, fold_left (mv_cell n skew s1 s2) (seq 0 k) (M, 0) = (A, vcarry M k) /\
  forall d, A d = M d + Rsum (vflow M d) (seq 0 k) - vcarry M k * ind (Nat.eqb d k).
Proof.
  induction k as [|k (A & E & HA)].
  - exists M. split; [reflexivity|]. intros d. cbn [seq vcarry]. rewrite Rsum_nil. lra.
  - rewrite seq_S, fold_left_app, E. cbn [Nat.add fold_left].
    assert (Hm : A k = M k) by (rewrite HA, vflow_at, ind_eqb_eq by reflexivity; lra).
    unfold mv_cell. rewrite Hm. eexists. split; [f_equal; cbn; unfold g1; ring|].
    intros d. unfold addto1. rewrite HA, Rsum_app, Rsum_cons, Rsum_nil.
    assert (Ef : vflow M d k = M k * (g1 k * ind (Nat.eqb d (S k)) + g2 k * ind (Nat.eqb d (k - 1)) - (g1 k + g2 k) * ind (Nat.eqb d k))) by reflexivity.
    rewrite Ef. clear Ef. cbn [vcarry].
    replace (M k * s2 * skew (2 * n - 2 - k)) with (M k * g2 k) by (unfold g2; ring).
    replace (M k * (s1 * skew k + s2 * skew (2 * n - 2 - k))) with (M k * (g1 k + g2 k)) by (unfold g1, g2; ring).
    destruct (Nat.eqb d k) eqn:E1; destruct (Nat.eqb d (k - 1)) eqn:E2; destruct (Nat.eqb d (S k)) eqn:E3; cbn [ind];
      rewrite ?Nat.eqb_eq, ?Nat.eqb_neq in *; try lia; try lra.
Qed.
Lemma Rsum_seq_last (f : nat -> R) k : Rsum f (seq 0 (S k)) = Rsum f (seq 0 k) + f k.
Proof. rewrite seq_S, Rsum_app, Rsum_cons, Rsum_nil. cbn. lra. Qed.
Lemma Rsum_ind1 (l : list nat) (f : nat -> R) d : NoDup l -> In d l -> Rsum (fun x => f x * ind (Nat.eqb d x)) l = f d.
Proof. intros. apply (Rsum_ind_in Nat.eqb (fun a b => Nat.eqb_eq a b)); assumption. Qed.
Lemma mv_sweep_sync M d : (d < L)%nat -> mv_sweep n skew s1 s2 M d = vec_step n skew s1 s2 M d.
Proof.
  intros Hd. unfold mv_sweep. fold L. destruct (mv_fold L M) as (A & E & HA). rewrite E.
  unfold addto1. rewrite HA. unfold vec_step. fold L.
  rewrite (ind_eqb_ne d L) by lia.
  assert (EL : L = S (2 * n - 2)) by (unfold L; lia).
  rewrite (Rsum_ext (vflow M d) (fun x => M x * vec_kernel n skew s1 s2 x d +
     M x * g1 x * (ind (Nat.eqb d (S x)) - ind (Nat.eqb d (Nat.min (x + 1) (2 * n - 2)))) - M x * ind (Nat.eqb d x))).
  2:{ intros x _. unfold vflow, vec_kernel, g1, g2. ring. }
  rewrite Rsum_minus, Rsum_plus, Rsum_ind1 by (try apply seq_NoDup; apply in_seq; lia).
  assert (E2 : Rsum (fun x => M x * g1 x * (ind (Nat.eqb d (S x)) - ind (Nat.eqb d (Nat.min (x + 1) (2 * n - 2))))) (seq 0 L) =
    - (vcarry M L * ind (Nat.eqb d (2 * n - 2)))).
  { rewrite EL, Rsum_seq_last, Rsum_zero.
    - cbn [vcarry]. rewrite (ind_eqb_ne d (S (2 * n - 2))) by lia.
      replace (Nat.min (2 * n - 2 + 1) (2 * n - 2)) with (2 * n - 2)%nat by lia. lra.
    - intros x Hx. apply in_seq in Hx. replace (Nat.min (x + 1) (2 * n - 2)) with (S x) by lia. lra. }
  rewrite E2. destruct (Nat.eqb d (2 * n - 2)); cbn [ind]; lra.
Qed.
Lemma vec_step_ext M M' d : (forall c, (c < L)%nat -> M c = M' c) -> vec_step n skew s1 s2 M d = vec_step n skew s1 s2 M' d.
Proof. intros H. apply Rsum_ext. intros c Hc. apply in_seq in Hc. now rewrite H by (fold L in Hc; lia). Qed.
Lemma mv_run_sync t d : (d < L)%nat ->
  mv_run n skew s1 s2 t d = iterate (vec_step n skew s1 s2) t (fun c => ind (Nat.eqb c (n - 1))) d.
Proof.
  revert d. induction t as [|t IH]; intros d Hd.
  - cbn. unfold mv_init. destruct (_ =? _)%nat; reflexivity.
  - unfold mv_run, iterate; cbn [Nat.iter nat_rect]. rewrite mv_sweep_sync by exact Hd. apply vec_step_ext. exact IH.
Qed.
Lemma vec_kernel_total x : (x < L)%nat -> Rsum (vec_kernel n skew s1 s2 x) (seq 0 L) = 1.
Proof.
  intros Hx. unfold vec_kernel. rewrite !Rsum_plus, !Rsum_scal.
  assert (H : forall c, (c < L)%nat -> Rsum (fun d => ind (Nat.eqb d c)) (seq 0 L) = 1).
  { intros c Hc. rewrite (Rsum_ext _ (fun d => 1 * ind (Nat.eqb c d))) by (intros; rewrite Nat.eqb_sym; lra).
    apply (Rsum_ind1 _ (fun _ => 1)); [apply seq_NoDup|apply in_seq; lia]. }
  rewrite !H; unfold L in *; try lia. lra.
Qed.
Lemma mv_run_total t : Rsum (mv_run n skew s1 s2 t) (seq 0 L) = 1.
Proof.
  induction t as [|t IH].
  - rewrite (Rsum_ext _ (fun d => 1 * ind (Nat.eqb (n - 1) d))).
    + apply (Rsum_ind1 _ (fun _ => 1)); [apply seq_NoDup|apply in_seq; unfold L; lia].
    + intros x _. cbn. unfold mv_init. rewrite Nat.eqb_sym. destruct (_ =? _)%nat; cbn; lra.
  - rewrite <- IH.
    transitivity (Rsum (vec_step n skew s1 s2 (mv_run n skew s1 s2 t)) (seq 0 L)).
    + apply Rsum_ext. intros d Hd. apply in_seq in Hd. unfold mv_run; cbn [Nat.iter nat_rect]. apply mv_sweep_sync; lia.
    + unfold vec_step. fold L. rewrite Rsum_swap. apply Rsum_ext. intros x Hx. apply in_seq in Hx.
      rewrite Rsum_scal, vec_kernel_total by lia. lra.
Qed.
Lemma mv_run_nonneg t : 0 <= s1 -> 0 <= s2 ->
  (forall x, (x < L)%nat -> 0 <= skew x) ->
  (forall x, (x < L)%nat -> s1 * skew x + s2 * skew (2 * n - 2 - x)%nat <= 1) ->
  forall d, (d < L)%nat -> 0 <= mv_run n skew s1 s2 t d.
Proof.
  intros H1 H2 Hs Hle. induction t as [|t IH]; intros d Hd.
  - cbn. unfold mv_init. destruct (_ =? _)%nat; lra.
  - unfold mv_run; cbn [Nat.iter nat_rect]. rewrite mv_sweep_sync by exact Hd. unfold vec_step.
    apply Rsum_nonneg. intros x Hc. apply in_seq in Hc. apply Rmult_le_pos; [apply IH; fold L in Hc; lia|].
    assert (Hx : (x < L)%nat) by (fold L in Hc; lia). unfold vec_kernel.
    pose proof (Hs x Hx). pose proof (Hs (2 * n - 2 - x)%nat ltac:(unfold L; lia)). pose proof (Hle x Hx).
    assert (Hi : forall b, 0 <= ind b <= 1) by (intros []; cbn; lra).
    assert (0 <= s1 * skew x) by now apply Rmult_le_pos. assert (0 <= s2 * skew (2 * n - 2 - x)%nat) by now apply Rmult_le_pos.
    repeat apply Rplus_le_le_0_compat; apply Rmult_le_pos; try apply Hi; lra.
Qed.
End V.
