(** Lemmas about dense tensors. *)
From Verif Require Import Prelude DenseModel AnalyticSpec.
From Coq Require Import Reals Lra FinFun.
Import List ListNotations.
Open Scope R_scope.

Lemma sumR_map {X} (f : X -> R) l : sumR (map f l) = Rsum f l.
Proof. reflexivity. Qed.

(** *** clamp *)
Lemma clampi_idem s i : clampi s (clampi s i) = clampi s i.
Proof. unfold clampi; destruct (s <=? 1); reflexivity. Qed.
Lemma clamp_nil_r sh : clamp sh [] = [].
Proof. destruct sh; reflexivity. Qed.
Lemma clamp_idem sh i : clamp sh (clamp sh i) = clamp sh i.
Proof.
  revert i; induction sh as [|s sh IH]; intros [|k i]; cbn; auto.
  now rewrite clampi_idem, IH.
Qed.
Lemma bmax_nil_r a : bmax a [] = a. Proof. destruct a; reflexivity. Qed.
Lemma bmax_nil_l a : bmax [] a = a. Proof. reflexivity. Qed.
Lemma bmax_comm a b : bmax a b = bmax b a.
Proof. revert b; induction a as [|s a IH]; intros [|s' b]; cbn; auto. rewrite IH, Nat.max_comm; auto. Qed.
Lemma bmax_assoc a b c : bmax a (bmax b c) = bmax (bmax a b) c.
Proof.
  revert b c; induction a as [|s a IH]; intros [|s' b] [|s'' c]; cbn; auto.
  rewrite IH, Nat.max_assoc; auto.
Qed.
Lemma bmax_idem a : bmax a a = a.
Proof. induction a; cbn; auto. now rewrite IHa, Nat.max_id. Qed.
Lemma clampi_max_l s s' k : clampi s (clampi (Nat.max s s') k) = clampi s k.
Proof.
  unfold clampi; destruct (Nat.leb_spec (Nat.max s s') 1), (Nat.leb_spec s 1); auto; lia.
Qed.
Lemma clamp_bmax_l a b i : clamp a (clamp (bmax a b) i) = clamp a i.
Proof.
  revert b i; induction a as [|s a IH]; intros [|s' b] [|k i]; cbn; auto.
  - now rewrite clampi_idem, clamp_idem.
  - now rewrite clampi_max_l, IH.
Qed.
Lemma clamp_bmax_r a b i : clamp b (clamp (bmax a b) i) = clamp b i.
Proof. rewrite bmax_comm; apply clamp_bmax_l. Qed.
Lemma clamp_length sh i : length (clamp sh i) = Nat.min (length sh) (length i).
Proof. revert i; induction sh; intros [|k i]; cbn; auto. Qed.
Lemma clamp_app_fst a b i : firstn (length a) (clamp (a ++ b) i) = clamp a (firstn (length a) i).
Proof.
  revert i; induction a as [|s a IH]; intros [|k i]; cbn; auto.
  now rewrite IH.
Qed.
Lemma clamp_app_snd a b i : skipn (length a) (clamp (a ++ b) i) = clamp b (skipn (length a) i).
Proof.
  revert i; induction a as [|s a IH]; intros [|k i]; cbn; auto.
  now rewrite clamp_nil_r.
Qed.
Lemma clamp_firstn a i : clamp a (firstn (length a) i) = clamp a i.
Proof. revert i; induction a as [|s a IH]; intros [|k i]; cbn; auto. now rewrite IH. Qed.
Lemma clamp_app a b i j : length i = length a -> clamp (a ++ b) (i ++ j) = clamp a i ++ clamp b j.
Proof.
  revert i; induction a as [|s a IH]; intros [|k i] H; cbn in *; try discriminate; auto.
  now rewrite IH by lia.
Qed.

(** *** indices *)
Lemma Forall2_cons_iff {A B} (P : A -> B -> Prop) a b l l' :
  Forall2 P (a :: l) (b :: l') <-> P a b /\ Forall2 P l l'.
Proof. split; [intros H; inversion H; auto | intros []; auto]. Qed.
Lemma Forall2_length' {A B} (P : A -> B -> Prop) l l' : Forall2 P l l' -> length l = length l'.
Proof. induction 1; cbn; auto. Qed.
Lemma In_indices sh i : In i (indices sh) <-> Forall2 lt i sh.
Proof.
  revert i; induction sh as [|s sh IH]; intros i; cbn.
  - split; [intros [<-|[]]; constructor | intros H; inversion H; auto].
  - rewrite in_flat_map; split.
    + intros (k & Hk & Hi). apply in_map_iff in Hi as (r & <- & Hr).
      apply in_seq in Hk. constructor; [lia|now apply IH].
    + intros H. destruct i as [|k r]; [inversion H|].
      apply Forall2_cons_iff in H as [Hk Hr].
      exists k; split; [apply in_seq; lia|]. apply in_map_iff. exists r; split; auto. now apply IH.
Qed.
Lemma clamp_in sh i : In i (indices sh) -> clamp sh i = i.
Proof.
  rewrite In_indices. intros H; induction H as [|k s i sh Hk H IH]; cbn; auto.
  rewrite IH. unfold clampi. destruct (Nat.leb_spec s 1); f_equal; lia.
Qed.
Lemma indices_length sh i : In i (indices sh) -> length i = length sh.
Proof. rewrite In_indices. apply Forall2_length'. Qed.
Lemma NoDup_app_intro {A} (l l' : list A) :
  NoDup l -> NoDup l' -> (forall x, In x l -> ~ In x l') -> NoDup (l ++ l').
Proof.
  induction l as [|a l IH]; cbn; intros H1 H2 H; auto.
  inversion H1; subst. constructor; [|apply IH; auto].
  rewrite in_app_iff. intros [?|?]; [contradiction|]. eapply H; eauto.
Qed.
Lemma NoDup_indices sh : NoDup (indices sh).
Proof.
  induction sh as [|s sh IH]; cbn; [repeat constructor; auto|].
  generalize 0%nat as a. induction s as [|s IHs]; intros a; cbn; [constructor|].
  apply NoDup_app_intro; auto.
  - apply FinFun.Injective_map_NoDup; auto. intros p q H; congruence.
  - intros x Hx Hx'. apply in_map_iff in Hx as (r & <- & _).
    apply in_flat_map in Hx' as (k & Hk & Hx'). apply in_map_iff in Hx' as (r' & E & _).
    apply in_seq in Hk. injection E as E _. lia.
Qed.
Lemma in_indices_app a b i : In i (indices (a ++ b)) <->
  In (firstn (length a) i) (indices a) /\ In (skipn (length a) i) (indices b).
Proof.
  rewrite !In_indices. revert i; induction a as [|s a IH]; intros i; cbn.
  - split; [intros H; split; auto; constructor | tauto].
  - destruct i as [|k i]; cbn.
    + split; [intros H; inversion H | intros [H _]; inversion H].
    + rewrite !Forall2_cons_iff, IH. tauto.
Qed.
Lemma in_indices_app2 a b i j : In i (indices a) -> In j (indices b) -> In (i ++ j) (indices (a ++ b)).
Proof. rewrite !In_indices. apply Forall2_app. Qed.

(** *** get *)
Lemma get_clamp_x t x y n d : get t (clamp (xs t) x) y n d = get t x y n d.
Proof. unfold get; now rewrite clamp_idem. Qed.
Lemma get_const c x y n d : get (dconst c) x y n d = c.
Proof. reflexivity. Qed.
Lemma get_zero x y n d : get dzero x y n d = 0.
Proof. reflexivity. Qed.
Lemma get_dbin op a b x y n d : get (dbin op a b) x y n d = op (get a x y n d) (get b x y n d).
Proof. unfold get; cbn. unfold get. now rewrite !clamp_bmax_l, !clamp_bmax_r. Qed.
Lemma get_dadd a b x y n d : get (dadd a b) x y n d = get a x y n d + get b x y n d.
Proof. apply get_dbin. Qed.
Lemma get_dmul a b x y n d : get (dmul a b) x y n d = get a x y n d * get b x y n d.
Proof. apply get_dbin. Qed.
Lemma get_dmap op a x y n d : get (dmap op a) x y n d = op (get a x y n d).
Proof. reflexivity. Qed.
Lemma get_dscal c a x y n d : get (dscal c a) x y n d = c * get a x y n d.
Proof. reflexivity. Qed.
Lemma get_dshift c a x y n d : get (dshift a c) x y n d = get a x y n d + c.
Proof. reflexivity. Qed.
Lemma get_dtrans a x y n d : get (dtrans a) x y n d = get a y x n d.
Proof. reflexivity. Qed.
Lemma get_ddrop a x y n d :
  get (ddrop a) x y n d = get a x y (firstn (length (ns a)) n) (skipn (length (ns a)) n).
Proof. unfold get; cbn [ddrop xs ys ns ds at_]. now rewrite clamp_app_fst, clamp_app_snd. Qed.
Lemma get_ddot_left s o x y m d :
  get (ddot_left s o) x y m d =
  Rsum (fun k => get o x [] k d * get s k y m d) (indices (bmax (xs s) (ns o))).
Proof.
  unfold get at 1; cbn [ddot_left xs ys ns ds at_]. rewrite sumR_map. apply Rsum_ext; intros k _.
  unfold get. now rewrite !clamp_idem, clamp_bmax_l, clamp_bmax_r.
Qed.
Lemma get_ddot_right s o x y m d :
  get (ddot_right s o) x y m d =
  Rsum (fun k => get o x y k d * get s k [] m d) (indices (bmax (xs s) (ns o))).
Proof.
  unfold get at 1; cbn [ddot_right xs ys ns ds at_]. rewrite sumR_map. apply Rsum_ext; intros k _.
  unfold get. now rewrite !clamp_idem, clamp_bmax_l, clamp_bmax_r.
Qed.
Lemma get_fold_dadd l a x y n d :
  get (fold_left dadd l a) x y n d = get a x y n d + Rsum (fun t => get t x y n d) l.
Proof.
  revert a; induction l as [|t l IH]; intros a; cbn [fold_left].
  - rewrite Rsum_nil; lra.
  - rewrite IH, get_dadd, Rsum_cons; lra.
Qed.
