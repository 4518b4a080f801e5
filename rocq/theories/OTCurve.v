(** Moving one entry of the parameters; the flat gradient is the derivative of the
    objective, the flat Hessian that of the flat gradient. *)
From Verif Require Import Prelude DenseModel AnalyticSpec DenseProofs NDArray NDProofs TensorModel TensorSpec TensorSpecOps TensorLemmas FuncModel FuncSpec FTModel FTSpec FTBuilt LTModel LTCell LTSpec LTDer ParamModel ParamProofs AssembleModel AssembleSpec OTModel OTSpec OTBlock OTFlat OTSim OTSim2 OTSim3 OTForm.
From Verif Require AssembleProofs FuncPrim.
From Coquelicot Require Import Coquelicot.
From Coq Require Import Reals Lra Sorted.
Import List ListNotations.
Open Scope R_scope.

Lemma upd_nth_id {A} : forall (l : list A) k d, upd_nth k (nth k l d) l = l.
Proof. induction l as [|x l IH]; intros [|k] d; cbn; auto. now rewrite IH. Qed.
Lemma upd_nth_out {A} : forall (l : list A) k v, (length l <= k)%nat -> upd_nth k v l = l.
Proof. induction l as [|x l IH]; intros [|k] v H; cbn in *; auto; [lia|]. rewrite IH by lia. reflexivity. Qed.
Lemma map_upd_nth {A B} (f : A -> B) : forall l k v, map f (upd_nth k v l) = upd_nth k (f v) (map f l).
Proof. induction l as [|x l IH]; intros [|k] v; cbn; auto. now rewrite IH. Qed.
Lemma Rsum_if {X} (f : X -> R) (b : X -> bool) l : Rsum f (filter b l) = Rsum (fun x => if b x then f x else 0) l.
Proof. induction l as [|x l IH]; [reflexivity|]. rewrite Rsum_cons, <- IH. cbn [filter]. destruct (b x); [now rewrite Rsum_cons|lra]. Qed.
Lemma Rsum_flat_map {X Y} (f : Y -> R) (g : X -> list Y) l : Rsum f (flat_map g l) = Rsum (fun x => Rsum f (g x)) l.
Proof. induction l as [|x l IH]; [reflexivity|]. cbn [flat_map]. now rewrite Rsum_app, Rsum_cons, IH. Qed.
Lemma Rsum_mp {X Y} (f : Y -> R) (g : X -> Y) l : Rsum f (map g l) = Rsum (fun x => f (g x)) l.
Proof. unfold Rsum. now rewrite map_map. Qed.
Lemma filter_none {A} (f : A -> bool) l : (forall x, In x l -> f x = false) -> filter f l = [].
Proof. induction l as [|x l IH]; intros H; [reflexivity|]. cbn. rewrite (H x) by (now left). apply IH. intros; apply H; now right. Qed.
Lemma sorted_nth pm : StronglySorted lt pm -> forall p q, (p < q < length pm)%nat -> (nth p pm 0 < nth q pm 0)%nat.
Proof.
  induction 1 as [|k pm Hs IH Hk]; intros p q Hpq; [cbn in Hpq; lia|]. destruct q as [|q]; [lia|]. cbn [length] in Hpq. destruct p as [|p]; cbn [nth].
  - rewrite Forall_forall in Hk. apply Hk, nth_In. lia.
  - apply IH. lia.
Qed.
Lemma occ_pairs pm i j (F : nat -> nat -> R) : StronglySorted lt pm -> (j <= i)%nat ->
  Rsum (fun p => Rsum (fun q => F p q) (occurrences pm j)) (occurrences pm i) = Rsum (fun pq => F (fst pq) (snd pq)) (occurrences2 pm i j).
Proof.
  intros St Hj. unfold occurrences2. rewrite Rsum_if, Rsum_flat_map. unfold occurrences at 2. rewrite Rsum_if. apply Rsum_ext. intros p Hp. apply in_seq in Hp. rewrite Rsum_mp. cbn [fst snd]. destruct (Nat.eqb_spec (nth p pm 0%nat) i) as [Ei|Ni]; cbn [andb].
  - unfold occurrences. replace (length pm) with (Datatypes.S p + (length pm - Datatypes.S p))%nat at 1 by lia. rewrite seq_app, filter_app, (filter_none _ (seq (0 + Datatypes.S p) _)).
    + rewrite app_nil_r, Rsum_if. reflexivity.
    + intros q Hq. apply in_seq in Hq. apply Nat.eqb_neq. pose proof (sorted_nth pm St p q ltac:(lia)). lia.
  - symmetry. apply Rsum_zero. reflexivity.
Qed.
(** the pairing of a function of some of the parameters with a unit velocity *)
Lemma sub_pairing ss pm G i x : Forall (fun k => k < length ss)%nat pm -> In x (indices (flat (nth i ss ([], [])))) ->
  pairing (sub_axes pm ss) G (fun p y => if Nat.eqb (nth p pm 0%nat) i && eqb_idx y x then 1 else 0) = Rsum (fun p => G p x) (occurrences pm i).
Proof.
  intros Hp Hx. unfold pairing, occurrences. rewrite Rsum_if. replace (length (sub_axes pm ss)) with (length pm) by (symmetry; apply map_length). apply Rsum_ext. intros p Hin. apply in_seq in Hin.
  assert (En : nth p (sub_axes pm ss) ([], []) = nth (nth p pm 0%nat) ss ([], [])).
  { unfold sub_axes, sel_at. rewrite (nth_indep _ ([], []) ((fun k => nth k ss ([], [])) 0%nat)) by (rewrite map_length; lia). now rewrite (map_nth (fun k => nth k ss ([], []))). }
  rewrite En. destruct (Nat.eqb_spec (nth p pm 0%nat) i) as [->|N]; cbn [andb].
  - transitivity (Rsum (fun y => if eqb_idx y x then G p y else 0) (indices (flat (nth i ss ([], []))))).
    + apply Rsum_ext. intros y _. destruct (eqb_idx y x); ring.
    + rewrite FuncPrim.Rsum_delta; [reflexivity|apply NoDup_indices|exact Hx].
  - apply Rsum_zero. intros y _. ring.
Qed.
Lemma sub_curve ss pm c v t : Forall (fun k => k < length ss)%nat pm -> par_curve ss c v t -> par_curve (sub_axes pm ss) (fun s => sub_args pm (c s)) (fun p x => v (nth p pm 0%nat) x) t.
Proof.
  intros Hp [A V]. split.
  - intros s. specialize (A s). unfold are_pars, sub_axes, sub_args, sel_at in *. clear V. induction Hp as [|k pm Hk Hp IH]; [constructor|]. cbn [map]. constructor; [|exact IH].
    clear -A Hk. revert k Hk. induction A as [|p q l ss0 H A IH]; intros k Hk; [cbn in Hk; lia|]. destruct k as [|k]; [exact H|]. cbn [nth]. apply IH. cbn in Hk. lia.
  - intros p x Hpl Hx. replace (length (sub_axes pm ss)) with (length pm) in Hpl by (symmetry; apply map_length).
    assert (En : nth p (sub_axes pm ss) ([], []) = nth (nth p pm 0%nat) ss ([], [])).
    { unfold sub_axes, sel_at. rewrite (nth_indep _ ([], []) ((fun k => nth k ss ([], [])) 0%nat)) by (rewrite map_length; lia). now rewrite (map_nth (fun k => nth k ss ([], []))). }
    rewrite En in Hx. rewrite Forall_forall in Hp. pose proof (V (nth p pm 0%nat) x (Hp _ (nth_In pm 0%nat Hpl)) Hx) as Dv. eapply is_derive_ext; [|exact Dv]. intros s. cbn beta. f_equal. unfold sub_args, sel_at.
    rewrite (nth_indep (map _ pm) (PNum 0) ((fun k => nth k (c s) (PNum 0)) 0%nat)) by (rewrite map_length; lia). now rewrite (map_nth (fun k => nth k (c s) (PNum 0))).
Qed.

Section set.
Variable params : list (param R).
Hypothesis PO : params_ok params.
Notation n := (length params).
Notation ss := (axes params).
Notation ps := (map arr_of params).
Variables i a : nat.
Hypothesis Hi : (i < n)%nat.
Hypothesis Ha : (a < size_of params i)%nat.
Notation set t := (set_entry params i a t).

Lemma set_nth t k : nth k (set t) noparam = if Nat.eqb k i then mkParam (p_shape (nth i params noparam)) (upd_nth a t (p_vals (nth i params noparam))) (p_mask (nth i params noparam)) else nth k params noparam.
Proof.
  unfold set_entry. destruct (Nat.eqb_spec k i) as [->|N]; [now apply AssembleProofs.nth_upd_nth_eq|now apply AssembleProofs.nth_upd_nth_neq; auto].
Qed.
Lemma set_len t : length (set t) = n.
Proof. apply upd_nth_len. Qed.
Lemma set_mask t k : p_mask (nth k (set t) noparam) = p_mask (nth k params noparam).
Proof. rewrite set_nth. destruct (Nat.eqb_spec k i) as [->|]; reflexivity. Qed.
Lemma set_shape t k : p_shape (nth k (set t) noparam) = p_shape (nth k params noparam).
Proof. rewrite set_nth. destruct (Nat.eqb_spec k i) as [->|]; reflexivity. Qed.
Lemma set_size t k : size_of (set t) k = size_of params k.
Proof. unfold size_of. now rewrite set_mask. Qed.
Lemma set_coords t : free_coords (set t) = free_coords params.
Proof. unfold free_coords. rewrite set_len. apply flat_map_ext. intros k. now rewrite set_mask. Qed.
Lemma set_axes t : axes (set t) = ss.
Proof.
  unfold axes. apply nth_ext with (d := (p_shape (@noparam R), [])) (d' := (p_shape (@noparam R), [])); [now rewrite !map_length, set_len|]. intros k Hk.
  rewrite !(map_nth (fun p : param R => (p_shape p, @nil nat))), set_shape. reflexivity.
Qed.
Lemma set_Sh t k : Sh (set t) k = Sh params k.
Proof. unfold Sh. apply set_shape. Qed.
Lemma set_pos t k b : ipos (set t) k b = ipos params k b.
Proof. unfold ipos. now rewrite set_Sh. Qed.
Lemma set_ok t : params_ok (set t).
Proof.
  destruct PO as [F N]. split; [|intros E; apply (f_equal (@length _)) in E; rewrite set_len in E; destruct params; [congruence|discriminate]].
  apply Forall_forall. intros p Hp. apply In_nth with (d := noparam) in Hp as (k & Hk & <-). rewrite set_len in Hk. rewrite Forall_forall in F. rewrite set_nth. destruct (Nat.eqb_spec k i) as [->|].
  - destruct (F _ (nth_In params noparam Hi)) as [[W1 W2] P]. split; [|exact P]. split; cbn; [now rewrite upd_nth_len|exact W2].
  - apply F, nth_In, Hk.
Qed.
Lemma set_same : set (entry_of params i a) = params.
Proof.
  unfold set_entry, entry_of. rewrite upd_nth_id. replace (mkParam _ _ _) with (nth i params noparam) by (destruct (nth i params noparam); reflexivity). apply upd_nth_id.
Qed.
Lemma pentry_arr p x : In x (indices (p_shape p)) -> pentry (arr_of p) x = nth (ravel (p_shape p) x) (p_vals p) 0.
Proof.
  intros Hx. unfold pentry, arr_of, parr. cbn [vden ns shp]. rewrite <- (indices_length _ _ Hx), firstn_all, skipn_all. unfold get. cbn [xs ys ns ds at_]. cbn. now rewrite clamp_in by exact Hx.
Qed.
Definition unit_at (k : nat) (y : idx) : R := if Nat.eqb k i && eqb_idx y (ipos params i a) then 1 else 0.
Lemma pos_in : In (ipos params i a) (indices (flat (nth i ss ([], [])))).
Proof. rewrite flat_axes. apply nth_in_indices. rewrite (size_Sh params PO) in Ha by exact Hi. exact Ha. Qed.
Lemma set_curve : par_curve ss (fun t => map arr_of (set t)) unit_at (entry_of params i a).
Proof.
  split.
  - intros t. rewrite <- (set_axes t). apply params_are, set_ok.
  - intros k x Hk Hx. rewrite axes_len in Hk. rewrite flat_axes in Hx.
    assert (En : forall t, nth k (map arr_of (set t)) (PNum 0) = arr_of (nth k (set t) noparam)).
    { intros t. rewrite (nth_indep _ (PNum 0) (arr_of noparam)) by (rewrite map_length, set_len; exact Hk). apply map_nth. }
    apply (is_derive_ext (fun t => nth (ravel (Sh params k) x) (p_vals (nth k (set t) noparam)) 0)).
    { intros t. rewrite En, pentry_arr by (rewrite set_shape; exact Hx). now rewrite set_shape. }
    pose proof (ravel_lt _ _ Hx) as Hr. pose proof (nth_ravel _ _ Hx) as Nr. unfold unit_at. destruct (Nat.eqb_spec k i) as [->|Nk]; cbn [andb].
    + destruct (nth_params_ok params PO i Hi) as [[W1 W2] _]. fold (Sh params i) in W1, W2. assert (Ha' : (a < prodn (Sh params i))%nat) by (rewrite <- (size_Sh params PO) by exact Hi; exact Ha).
      destruct (FuncPrim.eqb_idx_spec x (ipos params i a)) as [->|Nx].
      * apply (is_derive_ext (fun t => t)); [|apply @is_derive_id]. intros t. rewrite set_nth, Nat.eqb_refl. cbn [p_vals]. unfold ipos. rewrite ravel_nth by exact Ha'. symmetry. apply nth_upd_eq. rewrite <- W1 in Ha'. exact Ha'.
      * apply (is_derive_ext (fun _ => nth (ravel (Sh params i) x) (p_vals (nth i params noparam)) 0)); [|apply @is_derive_const]. intros t. rewrite set_nth, Nat.eqb_refl. cbn [p_vals]. symmetry. apply nth_upd_neq.
        intros E. apply Nx. unfold ipos. rewrite E. symmetry. exact Nr.
    + apply (is_derive_ext (fun _ => nth (ravel (Sh params k) x) (p_vals (nth k params noparam)) 0)); [|apply @is_derive_const]. intros t. rewrite set_nth. destruct (Nat.eqb_spec k i); [contradiction|reflexivity].
Qed.
End set.
