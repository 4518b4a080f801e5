(** Affine constraints and the Newton step. *)
From Coq Require Import String.
From Verif Require Import Prelude DenseModel AnalyticSpec DenseProofs NDArray NDProofs TensorModel TensorSpec FuncModel FuncSpec FTModel FTSpec FTBuilt LTModel LTSpec ETModel ParamModel ParamSpec ParamProofs AssembleModel AssembleSpec OTModel OTSpec OTFlat OTForm OTSim OTSim2 OTCurve FitModel FitSpec FitProofs.
From Verif Require AssembleNewton AssembleProofs.
From Coquelicot Require Import Coquelicot.
From Coq Require Import Reals Lra Sorted.
From Verif Require Import NTModel NTSpec NTLike NTThm.
Import List ListNotations.
Open Scope R_scope.

Lemma par_entry_arr q i x : (i < length q)%nat -> In x (indices (p_shape (nth i q noparam))) ->
  par_entry (map arr_of q) i x = entry_of q i (ravel (p_shape (nth i q noparam)) x).
Proof.
  intros Hi Hx. unfold par_entry. rewrite (nth_indep _ _ (arr_of noparam)) by (now rewrite map_length). rewrite map_nth, pentry_arr by exact Hx. reflexivity.
Qed.
(** the weighted sum of all entries, by position *)
Lemma over_entries q (w : nat -> idx -> R) : params_ok q ->
  over_params (axes q) (fun i x => w i x * par_entry (map arr_of q) i x) =
  Rsum (fun i => Rsum (fun a => w i (ipos q i a) * entry_of q i a) (seq 0 (size_of q i))) (seq 0 (length q)).
Proof.
  intros PO. unfold over_params. assert (La : length (axes q) = length q) by apply map_length. rewrite La. apply Rsum_ext. intros i Hi. apply in_seq in Hi.
  assert (Ei : flat (nth i (axes q) ([], [])) = p_shape (nth i q noparam)).
  { unfold axes. rewrite (nth_indep _ _ (p_shape (@noparam R), [])) by (rewrite map_length; lia). rewrite (map_nth (fun p : param R => (p_shape p, @nil nat))). unfold flat. cbn. apply app_nil_r. }
  rewrite Ei. set (sh := p_shape (nth i q noparam)).
  assert (W : param_wf (nth i q noparam)). { destruct PO as [F _]. rewrite Forall_forall in F. apply F. apply nth_In. lia. }
  assert (Ls : size_of q i = length (indices sh)). { unfold size_of. rewrite (proj2 W). symmetry. apply indices_len. }
  rewrite Ls. rewrite <- (AssembleProofs.map_nth_seq (indices sh) []) at 1. rewrite Rsum_mp. apply Rsum_ext. intros a Ha. apply in_seq in Ha.
  assert (Ia : In (nth a (indices sh) []) (indices sh)) by (apply nth_In; lia).
  rewrite par_entry_arr by (try lia; exact Ia). fold sh. rewrite ravel_nth by (rewrite <- indices_len; lia). reflexivity.
Qed.
(** ... split into free and fixed entries *)
Lemma over_free q (w : nat -> idx -> R) : params_ok q ->
  over_params (axes q) (fun i x => w i x * par_entry (map arr_of q) i x) =
  Rsum (fun k => let ia := nth k (free_coords q) (0, 0)%nat in w (fst ia) (ipos q (fst ia) (snd ia)) * nth k (free_entries q) 0) (seq 0 (n_free q)) +
  AssembleNewton.fixed_part 0 Rplus Rmult q (fun i a => w i (ipos q i a)).
Proof.
  intros PO. rewrite (over_entries q w PO). set (W := fun i a => w i (ipos q i a)).
  assert (Wf : Forall param_wf q) by (eapply Forall_impl; [|exact (proj1 PO)]; now intros p []).
  transitivity (Rsum (fun i => Rsum (fun a => W i a * entry_of q i a) (free_idx (p_mask (nth i q noparam))) + Rsum (fun a => W i a * entry_of q i a) (AssembleNewton.fixed_idx (p_mask (nth i q noparam)))) (seq 0 (length q))).
  { apply Rsum_ext. intros i Hi. unfold size_of. exact (AssembleNewton.sum_split_free 0 1 Rplus Rmult Rminus Ropp RTheory (p_mask (nth i q noparam)) (fun a => W i a * entry_of q i a)). }
  rewrite Rsum_plus. f_equal.
  transitivity (Rsum (fun ia => W (fst ia) (snd ia) * entry_of q (fst ia) (snd ia)) (free_coords q)).
  { unfold free_coords. rewrite Rsum_flat_map. apply Rsum_ext. intros i Hi. now rewrite Rsum_mp. }
  rewrite <- (AssembleProofs.map_nth_seq (free_coords q) (0, 0)%nat) at 1. rewrite Rsum_mp, AssembleNewton.free_coords_length. apply Rsum_ext. intros k Hk. apply in_seq in Hk. cbn zeta. unfold W. f_equal.
  rewrite (AssembleNewton.free_entries_coords 0) by exact Wf. rewrite (nth_indep _ 0 (AssembleNewton.pval 0 q (0, 0)%nat)) by (rewrite map_length, AssembleNewton.free_coords_length; lia).
  rewrite map_nth. reflexivity.
Qed.
Lemma frame_ipos q q' i a : same_frame q q' -> ipos q' i a = ipos q i a.
Proof. intros (_ & S & _). unfold ipos, Sh. rewrite <- !(map_nth p_shape). now rewrite S. Qed.
Lemma moved_affine ss b w q q' c mult step : params_ok q -> params_ok q' -> axes q = ss ->
  (forall ps, are_pars ss ps -> arrays ps -> term_at ps c = b + over_params ss (fun i x => w i x * par_entry ps i x)) -> moved_by mult step q q' ->
  con_value c q' = con_value c q - mult * Rsum (fun k => let ia := nth k (free_coords q) (0, 0)%nat in w (fst ia) (ipos q (fst ia) (snd ia)) * nth k step 0) (seq 0 (n_free q)).
Proof.
  intros PO PO' Ax V [Fr Mv]. pose proof (frame_axes _ _ Fr) as Ax'. unfold con_value.
  assert (Ar : forall l, arrays (map arr_of l)) by (intros l; apply Forall_forall; intros p Hp; apply in_map_iff in Hp as (x & <- & _); eexists; reflexivity).
  rewrite (V (map arr_of q')), (V (map arr_of q)); [|rewrite <- Ax; now apply params_are|apply Ar|rewrite <- Ax, <- Ax'; now apply params_are|apply Ar].
  rewrite <- Ax, (over_free q w PO), <- Ax', (over_free q' w PO').
  assert (Wf : Forall param_wf q) by (eapply Forall_impl; [|exact (proj1 PO)]; now intros p []).
  assert (Wf' : Forall param_wf q') by (eapply Forall_impl; [|exact (proj1 PO')]; now intros p []).
  rewrite (frame_masks _ _ Fr), (frame_nfree _ _ Fr).
  assert (Ef : AssembleNewton.fixed_part 0 Rplus Rmult q' (fun i a => w i (ipos q' i a)) = AssembleNewton.fixed_part 0 Rplus Rmult q (fun i a => w i (ipos q i a))).
  { rewrite (AssembleNewton.fixed_part_eq 0 Rplus Rmult q q') by (try assumption; apply Fr). unfold AssembleNewton.fixed_part. apply Rsum_ext. intros i _. apply Rsum_ext. intros a _. now rewrite (frame_ipos _ _ i a Fr). }
  rewrite Ef. cbn zeta.
  assert (Es : forall l, (forall k, In k l -> (k < n_free q)%nat) ->
    Rsum (fun k => w (fst (nth k (free_coords q) (0, 0)%nat)) (ipos q' (fst (nth k (free_coords q) (0, 0)%nat)) (snd (nth k (free_coords q) (0, 0)%nat))) * nth k (free_entries q') 0) l =
    Rsum (fun k => w (fst (nth k (free_coords q) (0, 0)%nat)) (ipos q (fst (nth k (free_coords q) (0, 0)%nat)) (snd (nth k (free_coords q) (0, 0)%nat))) * nth k (free_entries q) 0) l -
    mult * Rsum (fun k => w (fst (nth k (free_coords q) (0, 0)%nat)) (ipos q (fst (nth k (free_coords q) (0, 0)%nat)) (snd (nth k (free_coords q) (0, 0)%nat))) * nth k step 0) l).
  { induction l as [|k l IH]; intros Hl; [unfold Rsum; cbn; ring|]. rewrite !Rsum_cons, IH by (intros; apply Hl; now right). rewrite (frame_ipos _ _ _ _ Fr), (Mv k) by (apply Hl; now left). ring. }
  rewrite Es by (intros k Hk; apply in_seq in Hk; lia). ring.
Qed.
(** derivative of an affine constraint *)
Lemma affine_partial ss b w q c j a : params_ok q -> axes q = ss -> (j < length q)%nat -> (a < size_of q j)%nat ->
  (forall ps, are_pars ss ps -> arrays ps -> term_at ps c = b + over_params ss (fun i x => w i x * par_entry ps i x)) ->
  is_partial (con_value c) j a q (w j (ipos q j a)).
Proof.
  intros PO Ax Hj Ha V. pose proof (set_curve q PO j a Hj Ha) as [Cp Cv]. rewrite Ax in Cp, Cv. unfold is_partial, con_value.
  apply (is_derive_ext (fun t => b + over_params ss (fun i x => w i x * par_entry (map arr_of (set_entry q j a t)) i x))).
  { intros t. symmetry. apply V; [apply Cp|]. apply Forall_forall. intros p Hp. apply in_map_iff in Hp as (z & <- & _). eexists; reflexivity. }
  replace (w j (ipos q j a)) with (0 + pairing ss w (unit_at q j a)).
  - apply (is_derive_plus (fun _ => b) (fun t => over_params ss (fun i x => w i x * par_entry (map arr_of (set_entry q j a t)) i x))); [apply @is_derive_const|].
    unfold over_params, pairing. apply (is_derive_Rsum (fun t i => Rsum (fun x => w i x * par_entry (map arr_of (set_entry q j a t)) i x) (indices (flat (nth i ss ([], [])))))). intros i Hi. apply in_seq in Hi.
    apply (is_derive_Rsum (fun t x => w i x * par_entry (map arr_of (set_entry q j a t)) i x)). intros x Hx.
    apply (is_derive_scal (fun t => par_entry (map arr_of (set_entry q j a t)) i x)). apply Cv; [lia|exact Hx].
  - unfold unit_at. rewrite pairing_unit; [ring|rewrite <- Ax; unfold axes; now rewrite map_length|rewrite <- Ax; now apply pos_in].
Qed.
