(** Product: the Leibniz rule to second order. *)
From Verif Require Import Prelude DenseModel FuncModel AnalyticSpec FuncSpec DenseProofs FuncLemmas FuncAffine FuncSum FuncWrapP FuncCompose.
From Coquelicot Require Import Coquelicot.
From Coq Require Import Reals Lra.
Import List ListNotations.
Open Scope R_scope.
Open Scope list_scope.

Definition Rprod {X} (f : X -> R) (l : list X) : R := fold_right Rmult 1 (map f l).
Lemma Rprod_cons {X} (f : X -> R) a l : Rprod f (a :: l) = f a * Rprod f l.
Proof. reflexivity. Qed.
Lemma Rprod_app {X} (f : X -> R) l l' : Rprod f (l ++ l') = Rprod f l * Rprod f l'.
Proof. induction l as [|a l IH]; cbn [app]; [unfold Rprod at 2; cbn; ring|]. rewrite !Rprod_cons, IH; ring. Qed.
Lemma Rprod_ext {X} (f g : X -> R) l : (forall x, In x l -> f x = g x) -> Rprod f l = Rprod g l.
Proof. induction l as [|a l IH]; intros H; auto. rewrite !Rprod_cons, H, IH; auto; cbn; auto. intros; apply H; cbn; auto. Qed.

Lemma filter_filter {A} (p q : A -> bool) l : filter p (filter q l) = filter (fun a => q a && p a) l.
Proof. induction l as [|a l IH]; cbn; auto. destruct (q a); cbn; [destruct (p a); congruence|auto]. Qed.
Lemma filter_all {A} (p : A -> bool) l : (forall a, In a l -> p a = true) -> filter p l = l.
Proof. induction l as [|a l IH]; intros H; cbn; auto. rewrite H by (cbn; auto). f_equal. apply IH; intros; apply H; cbn; auto. Qed.

(** derivative of a product over a duplicate free list of positions *)
Lemma D_Rprod (f : R -> nat -> R) (df : nat -> R) l t : NoDup l ->
  (forall k, In k l -> is_derive (fun s => f s k) t (df k)) ->
  is_derive (fun s => Rprod (f s) l) t
    (Rsum (fun k => Rprod (f t) (filter (fun i => negb (Nat.eqb i k)) l) * df k) l).
Proof.
  induction l as [|a l IH]; intros Hn H.
  - apply is_derive_ext with (f := fun _ => 1); [reflexivity|]. apply D_const.
  - inversion Hn as [|? ? Ha Hn']; subst.
    eapply is_derive_ext; [intros s; symmetry; apply Rprod_cons|].
    eapply is_derive_eq; [apply D_mult; [apply H; cbn; auto|apply IH; auto; intros; apply H; cbn; auto]|].
    rewrite Rsum_cons. cbn [filter]. rewrite Nat.eqb_refl. cbn [negb].
    rewrite filter_all. 2:{ intros b Hb. destruct (Nat.eqb_spec b a); [subst; contradiction|reflexivity]. }
    rewrite (Rmult_comm (df a)). f_equal. rewrite <- Rsum_scal. apply Rsum_ext; intros k Hk.
    destruct (Nat.eqb_spec a k); [subst; contradiction|]. cbn [negb]. rewrite Rprod_cons. ring.
Qed.

Lemma keep_nil m : keep m [] = seq 0 m.
Proof. unfold keep. apply filter_all. reflexivity. Qed.
Lemma keep_filter m k l : filter (fun i => negb (Nat.eqb i l)) (keep m (k :: nil)) = keep m [k; l].
Proof.
  unfold keep. rewrite filter_filter. apply filter_ext. intros a. cbn. rewrite !orb_false_r.
  now rewrite negb_orb.
Qed.
Lemma keep_1 m k : keep m (k :: nil) = filter (fun i => negb (Nat.eqb i k)) (seq 0 m).
Proof. unfold keep. apply filter_ext. intros a. cbn. now rewrite orb_false_r. Qed.
Lemma keep_NoDup m e : NoDup (keep m e).
Proof. unfold keep. apply NoDup_filter, seq_NoDup. Qed.
Lemma keep_lt m e k : In k (keep m e) -> (k < m)%nat.
Proof. unfold keep. intros H. apply filter_In in H as [H _]. apply in_seq in H. lia. Qed.
Lemma keep_swap m k l : keep m [k; l] = keep m [l; k].
Proof. unfold keep. apply filter_ext. intros a. cbn. rewrite !orb_false_r. f_equal. apply orb_comm. Qed.
Lemma Rsum_keep m k (T : nat -> R) : Rsum T (keep m (k :: nil)) = Rsum (fun l => if Nat.eqb l k then 0 else T l) (seq 0 m).
Proof.
  rewrite keep_1. induction (seq 0 m) as [|a l IH]; auto. cbn [filter]. rewrite Rsum_cons.
  destruct (Nat.eqb_spec a k); cbn [negb]; [rewrite IH; ring|]. now rewrite Rsum_cons, IH.
Qed.
Lemma keep_S m k : (k < m)%nat -> keep (S m) (k :: nil) = keep m (k :: nil) ++ (m :: nil).
Proof.
  intros H. rewrite !keep_1, seq_S, filter_app. cbn. destruct (Nat.eqb_spec m k); [lia|reflexivity].
Qed.
Lemma keep_S_last m : keep (S m) (m :: nil) = seq 0 m.
Proof.
  rewrite keep_1, seq_S, filter_app. cbn. rewrite Nat.eqb_refl. cbn. rewrite app_nil_r.
  apply filter_all. intros a Ha. apply in_seq in Ha. destruct (Nat.eqb_spec a m); [lia|reflexivity].
Qed.
Lemma keep_S2 m k l : (k < m)%nat -> (l < m)%nat -> keep (S m) [k; l] = keep m [k; l] ++ (m :: nil).
Proof.
  intros Hk Hl. rewrite <- !keep_filter, keep_S, filter_app by auto. cbn. destruct (Nat.eqb_spec m l); [lia|reflexivity].
Qed.
Lemma keep_S2_last m k : (k < m)%nat -> keep (S m) [m; k] = keep m (k :: nil).
Proof. intros H. rewrite <- keep_filter, keep_S_last. now rewrite keep_1. Qed.

(** *** the scalar closed forms *)
Section Scalar.
Variables (V : nat -> R) (G Gx Gy : nat -> R) (H : nat -> R).
Definition LG (m : nat) : R := Rsum (fun k => Rprod V (keep m (k :: nil)) * G k) (seq 0 m).
Definition LH (m : nat) : R :=
  Rsum (fun k => Rsum (fun l => Rprod V (keep m [k; l]) * Gx k * Gy l) (keep m (k :: nil))
                 + Rprod V (keep m (k :: nil)) * H k) (seq 0 m).
Lemma LG_S m : LG (S m) = Rprod V (seq 0 m) * G m + V m * LG m.
Proof.
  unfold LG. rewrite (seq_S m), Rsum_app. cbn [Nat.add]. rewrite Rsum_cons, Rsum_nil, keep_S_last, Rplus_0_r.
  rewrite Rplus_comm. f_equal. rewrite <- Rsum_scal. apply Rsum_ext; intros k Hk. apply in_seq in Hk.
  rewrite keep_S, Rprod_app, Rprod_cons by lia. unfold Rprod at 2. cbn. ring.
Qed.
End Scalar.
Lemma LH_S V Gx Gy H m :
  LH V Gx Gy H (S m) = Rprod V (seq 0 m) * H m + V m * LH V Gx Gy H m
                       + LG V Gx m * Gy m + Gx m * LG V Gy m.
Proof.
  unfold LH, LG. rewrite (seq_S m), Rsum_app. cbn [Nat.add]. rewrite Rsum_cons, Rsum_nil, keep_S_last, Rplus_0_r.
  assert (E1 : Rsum (fun l => Rprod V (keep (S m) [m; l]) * Gx m * Gy l) (seq 0 m)
     = Gx m * Rsum (fun k => Rprod V (keep m (k :: nil)) * Gy k) (seq 0 m)).
  { rewrite <- Rsum_scal. apply Rsum_ext; intros l Hl. apply in_seq in Hl. rewrite keep_S2_last by lia. ring. }
  rewrite E1.
  assert (E2 : Rsum (fun k => Rsum (fun l => Rprod V (keep (S m) [k; l]) * Gx k * Gy l) (keep (S m) (k :: nil))
     + Rprod V (keep (S m) (k :: nil)) * H k) (seq 0 m) =
     V m * Rsum (fun k => Rsum (fun l => Rprod V (keep m [k; l]) * Gx k * Gy l) (keep m (k :: nil)) + Rprod V (keep m (k :: nil)) * H k) (seq 0 m)
     + Rsum (fun k => Rprod V (keep m (k :: nil)) * Gx k) (seq 0 m) * Gy m).
  { rewrite <- Rsum_scal, <- Rsum_scal_r, <- Rsum_plus. apply Rsum_ext; intros k Hk. apply in_seq in Hk.
    rewrite keep_S, Rsum_app, Rsum_cons, Rsum_nil, Rprod_app, Rprod_cons by lia.
    rewrite (keep_swap (S m) k m), keep_S2_last by lia.
    rewrite (Rsum_ext _ (fun l => V m * (Rprod V (keep m [k; l]) * Gx k * Gy l))).
    2:{ intros l Hl. apply keep_lt in Hl. rewrite keep_S2, Rprod_app, Rprod_cons by lia. unfold Rprod at 2. cbn. ring. }
    rewrite Rsum_scal. unfold Rprod at 4. cbn. ring. }
  rewrite E2. ring.
Qed.
Lemma LH_sym V Gx Gy H H' m : (forall k, (k < m)%nat -> H k = H' k) -> LH V Gx Gy H m = LH V Gy Gx H' m.
Proof.
  intros E. unfold LH. rewrite !Rsum_plus. f_equal.
  - erewrite (Rsum_ext (fun k => Rsum _ (keep m (k :: nil)))) by (intros; apply Rsum_keep).
    symmetry. erewrite (Rsum_ext (fun k => Rsum _ (keep m (k :: nil)))) by (intros; apply Rsum_keep).
    rewrite Rsum_swap. apply Rsum_ext; intros k _. apply Rsum_ext; intros l _.
    rewrite (Nat.eqb_sym k l). destruct (l =? k)%nat; auto. rewrite keep_swap. ring.
  - apply Rsum_ext; intros k Hk. apply in_seq in Hk. rewrite E by lia. reflexivity.
Qed.

(** *** shapes: a factor may have rank 0 *)
Definition weak (out : pst) (v : dt) : Prop :=
  xs v = [] /\ ys v = [] /\ ax_sub (ns v) (fst out) /\ ax_sub (ds v) (snd out).
Lemma tst_wmul sx sy out a b : weak out a -> tst sx sy out b -> tst sx sy out (dmul a b).
Proof.
  intros (A1 & A2 & A3 & A4) (B1 & B2 & B3 & B4 & B5). repeat split; cbn; rewrite ?A1, ?A2; cbn [bmax]; auto using ax_sub_bmax.
  destruct B5 as [B5|(? & ? & ? & ?)]; [left; now apply isnil_dmul_r|right].
  repeat split; auto; eapply bmax_len_r; eauto.
Qed.
Lemma weak_mul out a b : weak out a -> weak out b -> weak out (dmul a b).
Proof.
  intros (A1 & A2 & A3 & A4) (B1 & B2 & B3 & B4). repeat split; cbn; rewrite ?A1, ?A2, ?B1, ?B2; auto using ax_sub_bmax.
Qed.
Lemma weak_const out c : weak out (dconst c).
Proof. repeat split; left; reflexivity. Qed.
Lemma weak_fold out l v : Forall (weak out) l -> weak out v -> weak out (fold_left dmul l v).
Proof. intros H; revert v; induction H; cbn; auto using weak_mul. Qed.
Lemma weak_get out v x y n d : weak out v -> get v x y n d = get v [] [] n d.
Proof. intros (A1 & A2 & _). unfold get. now rewrite A1, A2. Qed.

Lemma get_fold_dmul l a x y n d :
  get (fold_left dmul l a) x y n d = get a x y n d * Rprod (fun t => get t x y n d) l.
Proof.
  revert a; induction l as [|t l IH]; intros a; cbn [fold_left].
  - unfold Rprod; cbn; ring.
  - rewrite IH, get_dmul, Rprod_cons; ring.
Qed.
Lemma Rprod_map {X Y} (f : Y -> R) (h : X -> Y) l : Rprod f (map h l) = Rprod (fun x => f (h x)) l.
Proof. unfold Rprod; now rewrite map_map. Qed.
Lemma get_dprod vs e x y n d : get (dprod vs e) x y n d = Rprod (fun k => get (nth k vs dzero) x y n d) (keep (length vs) e).
Proof.
  unfold dprod. destruct (keep (length vs) e) as [|k r]; cbn [map dreduce]; [reflexivity|].
  rewrite get_fold_dmul, Rprod_cons, Rprod_map. reflexivity.
Qed.
Lemma weak_dprod out vs e : Forall (weak out) vs -> weak out (dprod vs e).
Proof.
  intros H. assert (X : forall k, weak out (nth k vs dzero)).
  { intros k. destruct (le_lt_dec (length vs) k); [rewrite nth_overflow by auto; apply weak_const|].
    rewrite Forall_forall in H. apply H, nth_In; auto. }
  unfold dprod. destruct (keep (length vs) e) as [|k r]; cbn [map dreduce]; [apply weak_const|].
  apply weak_fold; auto. apply Forall_map, Forall_forall. auto.
Qed.

Section Product.
Context (ss os : list pst) (atoms : list sfun).
Notation m := (length atoms).
Notation ak k := (nth k atoms fnull).
Notation ok k := (nth k os ([], [])).
Notation si i := (flat (nth i ss ([], []))).
Notation out := (join os).
Notation F := (s_product atoms).
Hypothesis W : Forall2 (fun a o => wellformed ss o a) atoms os.
Hypothesis Bc : broadcastable os.

Lemma pm_len : length os = m.
Proof. symmetry; now apply (Forall2_length' _ _ _ W). Qed.
Lemma Wk k : (k < m)%nat -> wellformed ss (ok k) (ak k).
Proof. intros H. exact (Forall2_nth _ _ _ k fnull ([],[]) W H). Qed.
Lemma Lk k : (k < m)%nat -> ax_le (fst (ok k)) (fst out) /\ ax_le (snd (ok k)) (snd out).
Proof.
  intros H. pose proof Bc as B. unfold broadcastable in B. rewrite Forall_forall in B. apply B, nth_In. now rewrite pm_len.
Qed.
Definition vs ps : list dt := map (fun a => val (f_call a ps)) atoms.
Lemma in_atoms a : In a atoms -> exists k, (k < m)%nat /\ a = ak k.
Proof. intros H. apply In_nth with (d := fnull) in H as (k & Hk & <-). eauto. Qed.
Lemma vs_ok ps : has_sts ps ss -> rmapM (fun a => f_call a ps) atoms = Ok (vs ps).
Proof. intros H. apply rmapM_all_ok. intros a Ha. apply in_atoms in Ha as (k & Hk & ->). now apply (call_ok (Wk k Hk)). Qed.
Lemma vs_length ps : length (vs ps) = m. Proof. apply map_length. Qed.
Lemma nth_vs k ps : (k < m)%nat -> nth k (vs ps) dzero = val (f_call (ak k) ps).
Proof.
  intros H. unfold vs. rewrite nth_indep with (d' := (fun g => val (f_call g ps)) fnull) by now rewrite map_length.
  apply (map_nth (fun g => val (f_call g ps))).
Qed.
Lemma nth_map_atoms (P : sfun -> dt) k : (k < m)%nat -> nth k (map P atoms) dzero = P (ak k).
Proof.
  intros H. rewrite nth_indep with (d' := P fnull) by now rewrite map_length. apply map_nth.
Qed.
Lemma vs_weak ps : has_sts ps ss -> Forall (weak out) (vs ps).
Proof.
  intros H. unfold vs. apply Forall_map, Forall_forall. intros a Ha. apply in_atoms in Ha as (k & Hk & ->).
  destruct (call_st (Wk k Hk) ps H) as (E1 & E2 & E3 & E4), (Lk k Hk). repeat split; auto; rewrite ?E3, ?E4; right; auto.
Qed.

Definition V ps n d k : R := get (val (f_call (ak k) ps)) [] [] n d.
Definition Gr ps i x n d k : R := get (val (f_grad (ak k) ps i)) x [] n d.
Definition Hs ps i j x y n d k : R := hess_at (ak k) ps i j x y n d.
Definition PG ps i x n d : R := LG (V ps n d) (Gr ps i x n d) m.
Definition PH ps i j x y n d : R := LH (V ps n d) (Gr ps i x n d) (Gr ps j y n d) (Hs ps i j x y n d) m.

Lemma get_P ps e x y n d : has_sts ps ss -> get (dprod (vs ps) e) x y n d = Rprod (V ps n d) (keep m e).
Proof.
  intros H. rewrite get_dprod, vs_length. apply Rprod_ext. intros k Hk. apply keep_lt in Hk. unfold V. rewrite <- nth_vs by auto.
  apply (weak_get out). pose proof (vs_weak ps H) as X. rewrite Forall_forall in X. apply X, nth_In. now rewrite vs_length.
Qed.

Lemma product_call_ok ps : atoms <> [] -> has_sts ps ss ->
  exists v, f_call F ps = Ok v /\ has_st v out /\ forall x y n d, get v x y n d = Rprod (V ps n d) (seq 0 m).
Proof.
  intros Hne H. cbn. unfold product_call. rewrite vs_ok by auto. cbn [rbind].
  pose proof (vs_weak ps H) as Wk'.
  assert (St : Forall2 has_st (vs ps) os) by now apply (calls_sts atoms os ss).
  destruct (vs ps) as [|v r] eqn:E.
  { apply map_eq_nil in E. contradiction. }
  cbn [dreduce]. eexists; split; [reflexivity|]. split.
  - inversion St as [|? o ? os' Hv Hr]; subst. unfold join. cbn [fold_left].
    change (bmax (fst ([], []):list nat) (fst o), bmax (snd ([], []):list nat) (snd o)) with (jo ([],[]) o).
    change (fun a o0 : list nat * list nat => (bmax (fst a) (fst o0), bmax (snd a) (snd o0))) with jo.
    rewrite jo_nil. now apply has_st_fold_dmul.
  - intros x y n d. rewrite <- keep_nil, <- (get_P ps [] x y n d H). unfold dprod. rewrite E.
    rewrite keep_nil.
    replace (map (fun i => nth i (v :: r) dzero) (seq 0 (length (v :: r)))) with (v :: r); [reflexivity|].
    apply nth_ext with (d := dzero) (d' := dzero); [now rewrite map_length, seq_length|].
    intros k Hk. now rewrite nth_map_seq.
Qed.

Lemma product_grad_ok ps i : has_sts ps ss -> (i < length ss)%nat ->
  exists g, f_grad F ps i = Ok g /\ tst (si i) [] out g /\ forall x n d, get g x [] n d = PG ps i x n d.
Proof.
  intros H Hi. cbn. unfold product_grad. rewrite vs_ok by auto. cbn [rbind].
  rewrite rmapM_all_ok with (g := fun a => val (f_grad a ps i)).
  2:{ intros a Ha. apply in_atoms in Ha as (k & Hk & ->). now apply (grad_ok (Wk k Hk)). }
  cbn [rbind]. eexists; split; [reflexivity|]. split.
  - apply tst_dsum, Forall_map, Forall_forall. intros k Hk. apply in_seq in Hk. rewrite nth_map_atoms by lia.
    apply tst_wmul; [now apply weak_dprod, vs_weak|].
    destruct (Lk k ltac:(lia)). eapply tst_weaken; eauto. apply (grad_tst (Wk k ltac:(lia))); auto.
  - intros x n d. rewrite get_dsum, Rsum_map. unfold PG, LG. apply Rsum_ext; intros k Hk. apply in_seq in Hk.
    rewrite nth_map_atoms, get_dmul, get_P by (auto; lia). reflexivity.
Qed.

Definition avail ps i j : Prop := forall k, (k < m)%nat ->
  exists h, f_hess (ak k) ps i j = Ok h /\ tst (si i) (si j) (ok k) h /\
    forall x y n d, get h x y n d = hess_at (ak k) ps i j x y n d.

Lemma product_hess_gen ps i j : has_sts ps ss -> (i < length ss)%nat -> (j < length ss)%nat -> avail ps i j ->
  exists g, f_hess F ps i j = Ok g /\ tst (si i) (si j) out g /\ forall x y n d, get g x y n d = PH ps i j x y n d.
Proof.
  intros H Hi Hj A. cbn. unfold product_hess. rewrite vs_ok by auto. cbn [rbind].
  assert (EG : forall i, (i < length ss)%nat -> rmapM (fun a => f_grad a ps i) atoms = Ok (map (fun a => val (f_grad a ps i)) atoms)).
  { intros i' Hi'. apply rmapM_all_ok. intros a Ha. apply in_atoms in Ha as (k & Hk & ->). now apply (grad_ok (Wk k Hk)). }
  rewrite !EG by auto. cbn [rbind].
  rewrite rmapM_all_ok with (g := fun a => val (f_hess a ps i j)).
  2:{ intros a Ha. apply in_atoms in Ha as (k & Hk & ->). destruct (A k Hk) as (h & -> & _). reflexivity. }
  cbn [rbind]. eexists; split; [reflexivity|].
  assert (TGr : forall k i, (k < m)%nat -> (i < length ss)%nat -> tst (si i) [] out (val (f_grad (ak k) ps i))).
  { intros k i' Hk Hi'. destruct (Lk k Hk). eapply tst_weaken; eauto. now apply (grad_tst (Wk k Hk)). }
  split.
  - apply tst_dsum, Forall_flat_map, Forall_forall. intros k Hk. apply in_seq in Hk.
    unfold product_hess_k. constructor; [|constructor; auto].
    + apply tst_dsum, Forall_map, Forall_forall. intros l Hl. apply keep_lt in Hl.
      rewrite !nth_map_atoms by lia. apply tst_cross.
      * apply tst_wmul; [now apply weak_dprod, vs_weak|]. apply TGr; auto; lia.
      * apply tst_dtrans. apply TGr; auto.
    + rewrite nth_map_atoms by lia. apply tst_wmul; [now apply weak_dprod, vs_weak|].
      destruct (A k ltac:(lia)) as (h & -> & T & _). destruct (Lk k ltac:(lia)). eapply tst_weaken; eauto.
  - intros x y n d. rewrite get_dsum, Rsum_flat_map. unfold PH, LH. apply Rsum_ext; intros k Hk. apply in_seq in Hk.
    unfold product_hess_k. rewrite !Rsum_cons, Rsum_nil, Rplus_0_r. f_equal.
    + rewrite get_dsum, Rsum_map. apply Rsum_ext; intros l Hl. apply keep_lt in Hl.
      rewrite !nth_map_atoms, !get_dmul, get_dtrans, get_P by (auto; lia).
      unfold Gr. f_equal; [f_equal|]; eapply tst_ny; apply TGr; auto; lia.
    + rewrite nth_map_atoms, get_dmul, get_P by (auto; lia). f_equal.
      destruct (A k ltac:(lia)) as (h & -> & _ & Q). cbn [val]. apply Q.
Qed.

Lemma pavail_low ps i j : has_sts ps ss -> (i < length ss)%nat -> (j <= i)%nat -> avail ps i j.
Proof.
  intros H Hi Hj k Hk. destruct (wf_hess _ _ _ (Wk k Hk) ps i j H Hi Hj) as (h & E & T). exists h. split; auto. split; auto.
  intros. unfold hess_at. destruct (Nat.leb_spec j i); [|lia]. now rewrite E.
Qed.
Lemma product_hess_ok ps i j : has_sts ps ss -> (i < length ss)%nat -> (j <= i)%nat ->
  exists g, f_hess F ps i j = Ok g /\ tst (si i) (si j) out g /\ forall x y n d, get g x y n d = PH ps i j x y n d.
Proof. intros H Hi Hj. apply product_hess_gen; auto; [lia|]. now apply pavail_low. Qed.

Lemma LG_ext V0 V1 G0 G1 k : (forall j, (j < k)%nat -> V0 j = V1 j /\ G0 j = G1 j) -> LG V0 G0 k = LG V1 G1 k.
Proof.
  intros H. unfold LG. apply Rsum_ext; intros j Hj. apply in_seq in Hj. f_equal; [|apply H; lia].
  apply Rprod_ext. intros l Hl. apply keep_lt in Hl. now apply H.
Qed.
Lemma LH_ext V0 V1 G0 G1 K0 K1 H0 H1 k : (forall j, (j < k)%nat -> V0 j = V1 j /\ G0 j = G1 j /\ K0 j = K1 j /\ H0 j = H1 j) ->
  LH V0 G0 K0 H0 k = LH V1 G1 K1 H1 k.
Proof.
  intros H. assert (HP : forall e, Rprod V0 (keep k e) = Rprod V1 (keep k e)).
  { intros e. apply Rprod_ext. intros l Hl. apply keep_lt in Hl. now apply H. }
  unfold LH. apply Rsum_ext; intros j Hj. apply in_seq in Hj. rewrite HP. destruct (H j ltac:(lia)) as (_ & -> & _ & ->). f_equal.
  apply Rsum_ext; intros l Hl. apply keep_lt in Hl. rewrite HP. destruct (H l Hl) as (_ & _ & -> & _). reflexivity.
Qed.

Lemma product_wf : atoms <> [] -> wellformed ss out F.
Proof.
  intros Hne. constructor.
  - intros ps H. destruct (product_call_ok ps Hne H) as (v & ? & ? & _); eauto.
  - intros ps i H Hi. destruct (product_grad_ok ps i H Hi) as (g & ? & ? & _); eauto.
  - intros ps i j H Hi Hj. destruct (product_hess_ok ps i j H Hi Hj) as (g & ? & ? & _); eauto.
  - intros ps ps' H H' E.
    assert (VE : forall k n d, (k < m)%nat -> V ps n d k = V ps' n d k).
    { intros k n d Hk. unfold V. destruct (wf_ext _ _ _ (Wk k Hk) _ _ H H' E) as (E1 & _). apply E1. }
    assert (GE : forall k i x n d, (k < m)%nat -> (i < length ss)%nat -> Gr ps i x n d k = Gr ps' i x n d k).
    { intros k i x n d Hk Hi. unfold Gr. destruct (wf_ext _ _ _ (Wk k Hk) _ _ H H' E) as (_ & E2 & _). now apply E2. }
    split; [|split].
    + intros x y n d. destruct (product_call_ok ps Hne H) as (v & -> & _ & Q), (product_call_ok ps' Hne H') as (v' & -> & _ & Q').
      cbn [val]. rewrite Q, Q'. apply Rprod_ext. intros k Hk. apply in_seq in Hk. apply VE; lia.
    + intros i Hi x y n d.
      destruct (product_grad_ok ps i H Hi) as (g & -> & T & Q), (product_grad_ok ps' i H' Hi) as (g' & -> & T' & Q'). cbn [val].
      rewrite (tst_ny _ _ _ _ y _ _ T), (tst_ny _ _ _ _ y _ _ T'), Q, Q'. apply LG_ext. auto.
    + intros i j Hi Hj x y n d.
      destruct (product_hess_ok ps i j H Hi Hj) as (g & -> & _ & Q), (product_hess_ok ps' i j H' Hi Hj) as (g' & -> & _ & Q'). cbn [val].
      rewrite Q, Q'. apply LH_ext. intros k Hk. repeat split; auto; [apply GE; auto; lia|].
      apply (hess_at_ext _ _ _ _ _ (Wk k Hk)); auto; lia.
  - cbn; discriminate.
  - cbn; discriminate.
  - cbn; discriminate.
Qed.

Lemma PH_sym ps i j x y n d : (forall k, (k < m)%nat -> hess_sym ss (ak k)) ->
  has_sts ps ss -> (i < length ss)%nat -> (j < length ss)%nat -> PH ps i j x y n d = PH ps j i y x n d.
Proof.
  intros S H Hi Hj. unfold PH. apply LH_sym. intros k Hk. unfold Hs. apply (hess_at_sym ss); auto.
Qed.
Lemma product_hess_at ps i j x y n d : (forall k, (k < m)%nat -> hess_sym ss (ak k)) ->
  has_sts ps ss -> (i < length ss)%nat -> (j < length ss)%nat -> hess_at F ps i j x y n d = PH ps i j x y n d.
Proof.
  intros S H Hi Hj. unfold hess_at. destruct (Nat.leb_spec j i).
  - destruct (product_hess_ok ps i j H Hi) as (g & -> & _ & Q); [lia|]. apply Q.
  - destruct (product_hess_ok ps j i H Hj) as (g & -> & _ & Q); [lia|]. cbn [val]. rewrite Q. now apply PH_sym.
Qed.

Lemma product_correct D : atoms <> [] -> (forall k, (k < m)%nat -> correct ss (ok k) D (ak k)) -> correct ss out D F.
Proof.
  intros Hne C.
  assert (S : forall k, (k < m)%nat -> hess_sym ss (ak k)) by (intros k Hk; apply C; auto).
  assert (DV : forall k c v t n d, (k < m)%nat -> smooth_curve ss c v t -> D (c t) ->
     In n (indices (fst out)) -> In d (indices (snd out)) ->
     is_derive (fun s => V (c s) n d k) t (pairing ss (fun i x => Gr (c t) i x n d k) v)).
  { intros k c v t n d Hk Hc HD Hn Hd. destruct (C k Hk) as [Wo G _ _]. destruct (Lk k Hk) as [L1 L2].
    eapply is_derive_ext with (f := fun s => get (val (f_call (ak k) (c s))) [] [] (clamp (fst (ok k)) n) (clamp (snd (ok k)) d)).
    { intros s. symmetry. apply get_clamp_nd. apply (call_st Wo), Hc. }
    eapply is_derive_eq; [apply (G c v t Hc HD); eapply in_axle; eauto|].
    apply pairing_ext; intros i x Hi Hx. symmetry. eapply tst_clamp_nd. apply (grad_tst Wo); auto. apply Hc. }
  assert (DG : forall k c v t i x n d, (k < m)%nat -> smooth_curve ss c v t -> D (c t) ->
     (i < length ss)%nat -> In x (indices (si i)) -> In n (indices (fst out)) -> In d (indices (snd out)) ->
     is_derive (fun s => Gr (c s) i x n d k) t (pairing ss (fun j y => Hs (c t) i j x y n d k) v)).
  { intros k c v t i x n d Hk Hc HD Hi Hx Hn Hd. destruct (C k Hk) as [Wo _ H _]. destruct (Lk k Hk) as [L1 L2].
    eapply is_derive_ext with (f := fun s => get (val (f_grad (ak k) (c s) i)) x [] (clamp (fst (ok k)) n) (clamp (snd (ok k)) d)).
    { intros s. symmetry. eapply tst_clamp_nd. apply (grad_tst Wo); auto. apply Hc. }
    eapply is_derive_eq; [apply (H c v t Hc HD i x); auto; eapply in_axle; eauto|].
    apply pairing_ext; intros j y Hj Hy. symmetry. unfold Hs, hess_at. destruct (Nat.leb_spec j i).
    - eapply tst_clamp_nd. apply (hess_tst Wo); auto. apply Hc.
    - eapply tst_clamp_nd. apply (hess_tst Wo); auto. apply Hc. lia. }
  constructor.
  - now apply product_wf.
  - intros c v t Hc HD n d Hn Hd.
    eapply is_derive_ext with (f := fun s => Rprod (V (c s) n d) (seq 0 m)).
    { intros s. destruct (product_call_ok (c s) Hne) as (w & -> & _ & Q); [apply Hc|]. cbn [val]. now rewrite Q. }
    eapply is_derive_eq.
    { apply (D_Rprod (fun s => V (c s) n d) (fun k => pairing ss (fun i x => Gr (c t) i x n d k) v)); [apply seq_NoDup|].
      intros k Hk. apply in_seq in Hk. apply DV; auto. lia. }
    rewrite (Rsum_ext _ (fun k => pairing ss (fun i x => Rprod (V (c t) n d) (keep m (k :: nil)) * Gr (c t) i x n d k) v)).
    2:{ intros k _. now rewrite pairing_scal, keep_1. }
    rewrite <- pairing_Rsum. apply pairing_ext. intros i x Hi Hx.
    destruct (product_grad_ok (c t) i) as (g & -> & _ & Q); [apply Hc|auto|]. cbn [val]. now rewrite Q.
  - intros c v t Hc HD i x n d Hi Hx Hn Hd.
    eapply is_derive_ext with (f := fun s => PG (c s) i x n d).
    { intros s. destruct (product_grad_ok (c s) i) as (g & -> & _ & Q); [apply Hc|auto|]. cbn [val]. now rewrite Q. }
    eapply is_derive_eq.
    { unfold PG, LG. apply is_derive_Rsum. intros k Hk. apply in_seq in Hk. apply D_mult.
      - apply (D_Rprod (fun s => V (c s) n d) (fun l => pairing ss (fun j y => Gr (c t) j y n d l) v)); [apply keep_NoDup|].
        intros l Hl. apply keep_lt in Hl. apply DV; auto.
      - apply (DG k c v t i x n d); auto. lia. }
    transitivity (pairing ss (fun j y => PH (c t) i j x y n d) v).
    2:{ apply pairing_ext; intros j y Hj Hy. symmetry. apply product_hess_at; auto. apply Hc. }
    unfold PH, LH. rewrite (pairing_Rsum ss (fun k j y => _ + _)). apply Rsum_ext; intros k Hk.
    rewrite pairing_plus, pairing_scal. f_equal.
    rewrite (pairing_Rsum ss (fun l j y => _)), <- Rsum_scal_r. apply Rsum_ext; intros l _.
    rewrite pairing_scal, keep_filter. ring.
  - intros ps i H Hi x y n d. rewrite get_dtrans.
    destruct (product_hess_ok ps i i H Hi (le_n i)) as (g & -> & _ & Q). cbn [val]. rewrite !Q. now apply PH_sym.
Qed.

Lemma product_both : (forall k, (k < m)%nat -> hess_sym ss (ak k)) ->
  (forall k, (k < m)%nat -> hess_both ss (ok k) (ak k)) -> hess_both ss out F.
Proof.
  intros S B ps i j H Hij Hj.
  destruct (product_hess_gen ps i j H) as (g & E & T & Q); [lia|auto| |].
  { intros k Hk. destruct (B k Hk ps i j H Hij Hj) as (h & E & T & Q). exists h; split; auto; split; auto.
    intros. unfold hess_at. destruct (Nat.leb_spec j i); [lia|]. now rewrite Q. }
  exists g. split; auto. split; auto. intros x y n d. rewrite get_dtrans.
  destruct (product_hess_ok ps j i H Hj) as (g' & -> & _ & Q'); [lia|]. cbn [val]. rewrite Q, Q'. apply PH_sym; auto; lia.
Qed.

(** *** eval *)
Definition EvP : evalT := (dzero, [], []).
Lemma product_eval_agrees : atoms <> [] -> (forall k, (k < m)%nat -> eval_agrees ss (ok k) (ak k)) -> eval_agrees ss out F.
Proof.
  intros Hne E ps H. pose proof (has_sts_length _ _ H) as LP.
  pose (ev := fun k => match f_eval (ak k) ps with Ok e => e | Raise _ => EvP end).
  assert (EV : forall k, (k < m)%nat -> f_eval (ak k) ps = Ok (ev k) /\ has_st (fst (fst (ev k))) (ok k) /\
    triple_ok ss os ps (ev k) (val (f_call (ak k) ps)) (fun i => val (f_grad (ak k) ps i)) (fun i j => val (f_hess (ak k) ps i j))).
  { intros k Hk. destruct (Lk k Hk) as [L1 L2]. destruct (eval_triple ss (ok k) os (ak k) ps L1 L2 (E k Hk) H) as (e & Ee & S & T).
    unfold ev. rewrite Ee. auto. }
  assert (ES : rmapM (fun a => f_eval a ps) atoms = Ok (map ev (seq 0 m))).
  { replace (map ev (seq 0 m)) with (map (fun a => match f_eval a ps with Ok e => e | Raise _ => EvP end) atoms).
    - apply rmapM_all_ok. intros a Ha. apply in_atoms in Ha as (k & Hk & ->). destruct (EV k Hk) as (-> & _). reflexivity.
    - apply nth_ext with (d := EvP) (d' := EvP); [now rewrite !map_length, seq_length|].
      rewrite map_length. intros k Hk. rewrite nth_map_seq by auto.
      rewrite nth_indep with (d' := (fun a => match f_eval a ps with Ok e => e | Raise _ => EvP end) fnull) by now rewrite map_length.
      now rewrite (map_nth (fun a => match f_eval a ps with Ok e => e | Raise _ => EvP end)). }
  pose (stt := fun p => fold_left (product_eval_step (length ps)) (map ev (seq 0 p)) (init_eval (dconst 1) (length ps))).
  assert (Inv : forall p, (p <= m)%nat -> let '(v, gs, hs) := stt p in
     weak out v /\ (forall x y n d, get v x y n d = Rprod (V ps n d) (seq 0 p)) /\
     length gs = length ss /\ length hs = length ss /\
     forall i, (i < length ss)%nat ->
       tst (si i) [] out (nth i gs dzero) /\ (forall x n d, get (nth i gs dzero) x [] n d = LG (V ps n d) (Gr ps i x n d) p) /\
       length (nth i hs []) = S i /\
       forall j, (j <= i)%nat ->
         tst (si i) (si j) out (nth j (nth i hs []) dzero) /\
         forall x y n d, get (nth j (nth i hs []) dzero) x y n d = LH (V ps n d) (Gr ps i x n d) (Gr ps j y n d) (Hs ps i j x y n d) p).
  { induction p as [|p IH]; intros Hp.
    - unfold stt. cbn [seq map fold_left]. unfold init_eval. rewrite LP.
      split; [apply weak_const|]. split; [reflexivity|]. rewrite repeat_length, map_length, seq_length. split; auto. split; auto.
      intros i Hi. rewrite !nth_map_seq by auto. rewrite repeat_length. rewrite (nth_repeat dzero (length ss) i).
      split; [apply tst_zero|]. split; [reflexivity|]. split; auto. intros j Hj. rewrite (nth_repeat dzero (S i) j).
      split; [apply tst_zero|reflexivity].
    - specialize (IH ltac:(lia)). unfold stt. rewrite seq_S, map_app, fold_left_app. cbn [map fold_left Nat.add].
      fold (stt p). destruct (stt p) as [[v gs] hs]. destruct IH as (I1 & I2 & I3 & I4 & I5).
      destruct (EV p ltac:(lia)) as (_ & S0 & T0). destruct (ev p) as [[av ags] ahs]. cbn [fst] in S0.
      cbn [triple_ok] in T0. destruct T0 as (T1 & T2 & T3 & T4). cbn [product_eval_step]. rewrite LP.
      assert (Wa : weak out av).
      { destruct S0 as (? & ? & E3 & E4), (Lk p ltac:(lia)). repeat split; auto; rewrite ?E3, ?E4; right; auto. }
      assert (Qa : forall x y n d, get av x y n d = V ps n d p).
      { intros x y n d. rewrite (weak_get out) by auto. apply T1. }
      split; [now apply weak_mul|]. split.
      { intros x y n d. rewrite get_dmul, I2, Qa, Rprod_app. rewrite Rprod_cons. unfold Rprod at 3. cbn. ring. }
      rewrite !map_length, seq_length. split; auto. split; auto.
      intros i Hi. destruct (I5 i Hi) as (J1 & J2 & J3 & J4), (T4 i Hi) as (K1 & K2 & K3 & K4).
      rewrite !nth_map_seq by auto. rewrite map_length, seq_length.
      split; [apply tst_dadd; now apply tst_wmul|]. split.
      { intros x n d. rewrite LG_S, get_dadd, !get_dmul, I2, Qa, J2, K2. reflexivity. }
      split; auto. intros j Hj. rewrite nth_map_seq by lia.
      destruct (J4 j Hj) as (M1 & M2), (K4 j Hj) as (N1 & N2).
      destruct (I5 j ltac:(lia)) as (J1' & J2' & _), (T4 j ltac:(lia)) as (K1' & K2' & _).
      split.
      { repeat apply tst_dadd; try (now apply tst_wmul); apply tst_cross; auto; now apply tst_dtrans. }
      intros x y n d. rewrite LH_S, !get_dadd, !get_dmul, !get_dtrans, I2, Qa, N2, M2.
      rewrite (tst_ny _ _ _ _ y _ _ J1), (tst_ny _ _ _ _ y _ _ K1), (tst_ny _ _ _ _ x _ _ J1'), (tst_ny _ _ _ _ x _ _ K1').
      rewrite J2, J2', K2, K2'. unfold Hs at 2, hess_at. destruct (Nat.leb_spec j i); [|lia]. reflexivity. }
  assert (SV : has_st (fst (fst (stt m))) out).
  { unfold join. rewrite <- (firstn_all os) at 1. rewrite pm_len.
    assert (X : forall p, (p <= m)%nat -> has_st (fst (fst (stt p))) (fold_left jo (firstn p os) ([], []))).
    { induction p as [|p IH]; intros Hp; [apply has_st_const|].
      specialize (IH ltac:(lia)). unfold stt. rewrite seq_S, map_app, fold_left_app. cbn [map fold_left Nat.add]. fold (stt p).
      destruct (EV p ltac:(lia)) as (_ & S0 & _). destruct (stt p) as [[v gs] hs], (ev p) as [[av ags] ahs]. cbn [fst product_eval_step] in *.
      replace (firstn (S p) os) with (firstn p os ++ (ok p :: nil)).
      - rewrite fold_left_app. cbn [fold_left]. now apply has_st_dmul.
      - clear - Hp W. pose proof pm_len as L. assert (Hl : (p < length os)%nat) by lia. clear - Hl.
        revert p Hl. generalize os as l. induction l as [|a l IH]; cbn; intros p Hp; [lia|]. destruct p; cbn; auto. f_equal. apply IH. lia. }
    apply X; auto. }
  specialize (Inv m (le_n _)).
  assert (EF : f_eval F ps = Ok (stt m)) by (cbn; unfold product_eval; rewrite ES; reflexivity).
  destruct (stt m) as [[v gs] hs]. destruct Inv as (I1 & I2 & I3 & I4 & I5). cbn [fst] in SV.
  exists v, gs, hs. split; auto. split; auto. split.
  { intros x y n d. destruct (product_call_ok ps Hne H) as (v' & -> & _ & Q). cbn [val]. now rewrite I2, Q. }
  split; auto. split; auto. intros i Hi. destruct (I5 i Hi) as (J1 & J2 & J3 & J4). split; auto. split.
  { intros x y n d. destruct (product_grad_ok ps i H Hi) as (g & -> & T & Q). cbn [val].
    now rewrite (tst_ny _ _ _ _ y _ _ T), (tst_ny _ _ _ _ y _ _ J1), J2, Q. }
  split; auto. intros j Hj. destruct (J4 j Hj) as (M1 & M2). split; auto.
  intros x y n d. destruct (product_hess_ok ps i j H Hi Hj) as (g & -> & _ & Q). cbn [val]. now rewrite M2, Q.
Qed.
End Product.
