(** Sum keeps derivatives right. *)
From Verif Require Import Prelude DenseModel FuncModel AnalyticSpec FuncSpec DenseProofs FuncLemmas FuncAffine.
From Coquelicot Require Import Coquelicot.
From Coq Require Import Reals Lra.
Import List ListNotations.
Open Scope R_scope.

Lemma Forall2_In_l {A B} (P : A -> B -> Prop) l l' a : Forall2 P l l' -> In a l -> exists b, In b l' /\ P a b.
Proof.
  induction 1; intros Hi; [destruct Hi|]. destruct Hi as [<-|Hi]; [exists y; cbn; auto|].
  destruct (IHForall2 Hi) as (b & ? & ?). exists b; cbn; auto.
Qed.
Lemma Forall2_impl_in {A B} (P Q : A -> B -> Prop) l l' :
  Forall2 P l l' -> (forall a b, In a l -> In b l' -> P a b -> Q a b) -> Forall2 Q l l'.
Proof. induction 1; intros Hi; constructor; [apply Hi; cbn; auto|]. apply IHForall2. intros; apply Hi; cbn; auto. Qed.

Definition jo (a o : pst) : pst := (bmax (fst a) (fst o), bmax (snd a) (snd o)).
Lemma has_st_dadd v a w o : has_st v a -> has_st w o -> has_st (dadd v w) (jo a o).
Proof. intros (H1 & H2 & H3 & H4) (G1 & G2 & G3 & G4). repeat split; cbn; rewrite ?H1, ?H2, ?G1, ?G2, ?H3, ?G3, ?H4, ?G4; auto. Qed.
Lemma has_st_dmul v a w o : has_st v a -> has_st w o -> has_st (dmul v w) (jo a o).
Proof. intros (H1 & H2 & H3 & H4) (G1 & G2 & G3 & G4). repeat split; cbn; rewrite ?H1, ?H2, ?G1, ?G2, ?H3, ?G3, ?H4, ?G4; auto. Qed.
Lemma has_st_const c : has_st (dconst c) ([], []).
Proof. repeat split. Qed.
Lemma has_st_fold_dadd vs os v o : Forall2 has_st vs os -> has_st v o ->
  has_st (fold_left dadd vs v) (fold_left jo os o).
Proof. intros H; revert v o; induction H; cbn; intros; auto. apply IHForall2, has_st_dadd; auto. Qed.
Lemma has_st_fold_dmul vs os v o : Forall2 has_st vs os -> has_st v o ->
  has_st (fold_left dmul vs v) (fold_left jo os o).
Proof. intros H; revert v o; induction H; cbn; intros; auto. apply IHForall2, has_st_dmul; auto. Qed.
Lemma jo_nil o : jo ([], []) o = o.
Proof. destruct o; reflexivity. Qed.

Section Sum.
Context (ss : list pst) (atoms : list (R * sfun)) (b : R) (os : list pst).
Notation F := (s_sum atoms b).
Notation out := (join os).

(** one method of all the atoms *)
Definition terms (M : sfun -> res dt) : list dt := map (fun p => dscal (fst p) (val (M (snd p)))) atoms.
Lemma terms_ok M : Forall (fun p => exists g, M (snd p) = Ok g) atoms ->
  rmapM (fun '(w, a) => let! v := M a in Ok (dscal w v)) atoms = Ok (terms M).
Proof.
  intros H. unfold terms. apply rmapM_all_ok. intros [w a] Hi.
  eapply Forall_forall in H; [|exact Hi]. destruct H as (g & E). cbn in *. now rewrite E.
Qed.
Lemma get_terms M x y n d : get (dsum (terms M)) x y n d =
  Rsum (fun p => fst p * get (val (M (snd p))) x y n d) atoms.
Proof. rewrite get_dsum. unfold terms. rewrite Rsum_map. reflexivity. Qed.
Lemma tst_terms M sx sy o : Forall (fun p => tst sx sy o (val (M (snd p)))) atoms ->
  tst sx sy o (dsum (terms M)).
Proof.
  intros H. apply tst_dsum. unfold terms. apply Forall_map. eapply Forall_impl; [|exact H].
  intros; now apply tst_dscal.
Qed.

Hypothesis W : Forall2 (fun p o => wellformed ss o (snd p)) atoms os.
Hypothesis Bc : broadcastable os.

Lemma atoms_in (P : (R * sfun) -> Prop) :
  (forall p o, In p atoms -> wellformed ss o (snd p) -> ax_le (fst o) (fst out) -> ax_le (snd o) (snd out) -> P p) ->
  Forall P atoms.
Proof.
  intros H. apply Forall_forall. intros p Hp. destruct (Forall2_In_l _ _ _ _ W Hp) as (o & Ho & Wo).
  unfold broadcastable in Bc. rewrite Forall_forall in Bc. destruct (Bc o Ho). eauto.
Qed.

Lemma sum_call ps : has_sts ps ss -> f_call F ps = Ok (dshift (dsum (terms (fun a => f_call a ps))) b).
Proof.
  intros H. cbn. rewrite (terms_ok (fun a => f_call a ps)); [reflexivity|].
  apply atoms_in. intros p o _ Wo _ _. eexists; now apply (call_ok Wo).
Qed.
Lemma sum_grad ps i : has_sts ps ss -> (i < length ss)%nat ->
  f_grad F ps i = Ok (dsum (terms (fun a => f_grad a ps i))).
Proof.
  intros H Hi. cbn. rewrite (terms_ok (fun a => f_grad a ps i)); [reflexivity|].
  apply atoms_in. intros p o _ Wo _ _. eexists; now apply (grad_ok Wo).
Qed.
Lemma sum_hess ps i j : has_sts ps ss -> (i < length ss)%nat -> (j <= i)%nat ->
  f_hess F ps i j = Ok (dsum (terms (fun a => f_hess a ps i j))).
Proof.
  intros H Hi Hj. cbn. rewrite (terms_ok (fun a => f_hess a ps i j)); [reflexivity|].
  apply atoms_in. intros p o _ Wo _ _. eexists; now apply (hess_ok Wo).
Qed.

Lemma sum_wf : wellformed ss out F.
Proof.
  constructor.
  - intros ps H. rewrite sum_call by auto. eexists; split; [reflexivity|].
    assert (G : has_st (dsum (terms (fun a => f_call a ps))) out).
    { unfold dsum, join. apply has_st_fold_dadd; [|apply has_st_const].
      unfold terms. clear Bc. induction W as [|p o l l' Wo W' IH]; cbn; constructor; auto.
      apply (call_st Wo ps H). }
    destruct G as (? & ? & ? & ?). repeat split; auto.
  - intros ps i H Hi. rewrite sum_grad by auto. eexists; split; [reflexivity|].
    apply tst_terms, atoms_in. intros p o _ Wo L1 L2. apply (tst_weaken _ _ o); auto. now apply (grad_tst Wo).
  - intros ps i j H Hi Hj. rewrite sum_hess by auto. eexists; split; [reflexivity|].
    apply tst_terms, atoms_in. intros p o _ Wo L1 L2. apply (tst_weaken _ _ o); auto. now apply (hess_tst Wo).
  - intros ps ps' H H' E.
    assert (X : Forall (fun p => deq (val (f_call (snd p) ps)) (val (f_call (snd p) ps')) /\
       (forall i, (i < length ss)%nat -> deq (val (f_grad (snd p) ps i)) (val (f_grad (snd p) ps' i))) /\
       (forall i j, (i < length ss)%nat -> (j <= i)%nat -> deq (val (f_hess (snd p) ps i j)) (val (f_hess (snd p) ps' i j)))) atoms).
    { apply atoms_in. intros p o _ Wo _ _. now apply (wf_ext _ _ _ Wo). }
    rewrite Forall_forall in X. split; [|split].
    + rewrite !sum_call by auto. cbn. apply deq_dshift. intros x y n d. rewrite !get_terms.
      apply Rsum_ext. intros p Hp. f_equal. now apply (X p Hp).
    + intros i Hi. rewrite !sum_grad by auto. intros x y n d. cbn [val]. rewrite !get_terms.
      apply Rsum_ext. intros p Hp. f_equal. now apply (X p Hp).
    + intros i j Hi Hj. rewrite !sum_hess by auto. intros x y n d. cbn [val]. rewrite !get_terms.
      apply Rsum_ext. intros p Hp. f_equal. now apply (X p Hp).
  - cbn; discriminate.
  - cbn; discriminate.
  - cbn; discriminate.
Qed.

Lemma sum_hess_at ps i j x y n d : has_sts ps ss -> (i < length ss)%nat -> (j < length ss)%nat ->
  hess_at F ps i j x y n d = Rsum (fun p => fst p * hess_at (snd p) ps i j x y n d) atoms.
Proof.
  intros H Hi Hj. unfold hess_at. destruct (Nat.leb_spec j i).
  - rewrite sum_hess by (auto; lia). cbn [val]. apply get_terms.
  - rewrite sum_hess by (auto; lia). cbn [val]. apply get_terms.
Qed.

Lemma in_axle a o i : ax_le a o -> In i (indices o) -> In (clamp a i) (indices a).
Proof.
  intros H Hi. apply In_indices in Hi; apply In_indices. revert i Hi.
  induction H as [|s s' a o Hs H IH]; intros i Hi; inversion Hi; subst; cbn; constructor; auto.
  unfold clampi. destruct (Nat.leb_spec s 1); lia.
Qed.
Lemma get_clamp_nd t o n d : has_st t o -> forall x y, get t x y n d = get t x y (clamp (fst o) n) (clamp (snd o) d).
Proof. intros (H1 & H2 & H3 & H4) x y. unfold get. rewrite H3, H4. now rewrite !clamp_idem. Qed.

Lemma tst_clamp_nd sx sy o t x y n d : tst sx sy o t ->
  get t x y n d = get t x y (clamp (fst o) n) (clamp (snd o) d).
Proof.
  intros (_ & _ & H3 & H4 & _). unfold get. f_equal.
  - destruct H3 as [->|H3]; auto. symmetry. revert n. induction H3 as [|s s' a o' Hs H IH]; intros [|k n]; cbn; auto.
    rewrite IH. f_equal. unfold clampi. destruct (Nat.leb_spec s' 1), (Nat.leb_spec s 1); auto; lia.
  - destruct H4 as [->|H4]; auto. symmetry. revert d. induction H4 as [|s s' a o' Hs H IH]; intros [|k d]; cbn; auto.
    rewrite IH. f_equal. unfold clampi. destruct (Nat.leb_spec s' 1), (Nat.leb_spec s 1); auto; lia.
Qed.

Lemma sum_correct D : Forall2 (fun p o => correct ss o D (snd p)) atoms os -> correct ss out D F.
Proof.
  intros C.
  assert (CI : forall p, In p atoms -> exists o, correct ss o D (snd p) /\ ax_le (fst o) (fst out) /\ ax_le (snd o) (snd out)).
  { intros p Hp. destruct (Forall2_In_l _ _ _ _ C Hp) as (o & Ho & Co).
    unfold broadcastable in Bc. rewrite Forall_forall in Bc. destruct (Bc o Ho). eauto. }
  constructor.
  - apply sum_wf.
  - intros c v t Hc HD n d Hn Hd.
    eapply is_derive_ext with (f := fun s => Rsum (fun p => fst p * get (val (f_call (snd p) (c s))) [] [] n d) atoms + b).
    { intros s. rewrite sum_call by apply Hc. cbn [val]. now rewrite get_dshift, get_terms. }
    eapply is_derive_eq.
    + apply D_plus; [|apply D_const]. apply (is_derive_Rsum (fun s p => fst p * get (val (f_call (snd p) (c s))) [] [] n d)
        (fun p => fst p * pairing ss (fun i x => get (val (f_grad (snd p) (c t) i)) x [] n d) v)).
      intros p Hp. apply D_scal. destruct (CI p Hp) as (o & [Wo G _ _] & L1 & L2).
      eapply is_derive_ext with (f := fun s => get (val (f_call (snd p) (c s))) [] [] (clamp (fst o) n) (clamp (snd o) d)).
      { intros s. symmetry. apply get_clamp_nd. apply (call_st Wo), Hc. }
      eapply is_derive_eq; [apply (G c v t Hc HD); eapply in_axle; eauto|].
      apply pairing_ext; intros i x Hi Hx. symmetry. eapply tst_clamp_nd. apply (grad_tst Wo); auto. apply Hc.
    + rewrite Rplus_0_r. rewrite (Rsum_ext _ (fun p => pairing ss (fun i x => fst p * get (val (f_grad (snd p) (c t) i)) x [] n d) v))
        by (intros; now rewrite pairing_scal).
      rewrite <- pairing_Rsum. apply pairing_ext. intros i x Hi Hx.
      rewrite sum_grad by (auto; apply Hc). cbn [val]. now rewrite get_terms.
  - intros c v t Hc HD i x n d Hi Hx Hn Hd.
    eapply is_derive_ext with (f := fun s => Rsum (fun p => fst p * get (val (f_grad (snd p) (c s) i)) x [] n d) atoms).
    { intros s. rewrite sum_grad by (auto; apply Hc). cbn [val]. now rewrite get_terms. }
    eapply is_derive_eq.
    + apply (is_derive_Rsum (fun s p => fst p * get (val (f_grad (snd p) (c s) i)) x [] n d)
        (fun p => fst p * pairing ss (fun j y => hess_at (snd p) (c t) i j x y n d) v)).
      intros p Hp. apply D_scal. destruct (CI p Hp) as (o & [Wo _ H _] & L1 & L2).
      eapply is_derive_ext with (f := fun s => get (val (f_grad (snd p) (c s) i)) x [] (clamp (fst o) n) (clamp (snd o) d)).
      { intros s. symmetry. eapply tst_clamp_nd. apply (grad_tst Wo); auto. apply Hc. }
      eapply is_derive_eq; [apply (H c v t Hc HD i x); auto; eapply in_axle; eauto|].
      apply pairing_ext; intros j y Hj Hy. symmetry. unfold hess_at. destruct (Nat.leb_spec j i).
      * eapply tst_clamp_nd. apply (hess_tst Wo); auto. apply Hc.
      * eapply tst_clamp_nd. apply (hess_tst Wo); auto. apply Hc. lia.
    + rewrite (Rsum_ext _ (fun p => pairing ss (fun j y => fst p * hess_at (snd p) (c t) i j x y n d) v))
        by (intros; now rewrite pairing_scal).
      rewrite <- pairing_Rsum. apply pairing_ext. intros j y Hj Hy.
      rewrite sum_hess_at; auto. apply Hc.
  - intros ps i H Hi x y n d. rewrite sum_hess by (auto; lia). rewrite get_dtrans. cbn [val]. rewrite !get_terms.
    apply Rsum_ext. intros p Hp. f_equal. destruct (CI p Hp) as (o & [Wo _ _ S] & L1 & L2).
    now apply S.
Qed.

Lemma sum_both : Forall (fun p => exists o, In o os /\ hess_both ss o (snd p)) atoms -> hess_both ss out F.
Proof.
  intros B ps i j H Hij Hj. 
  rewrite Forall_forall in B. pose proof Bc as Bc'. unfold broadcastable in Bc'. rewrite Forall_forall in Bc'.
  assert (E : f_hess F ps i j = Ok (dsum (terms (fun a => f_hess a ps i j)))).
  { cbn. rewrite (terms_ok (fun a => f_hess a ps i j)); [reflexivity|].
    apply Forall_forall. intros p Hp. destruct (B p Hp) as (o & Ho & Bo).
    destruct (Bo ps i j H Hij Hj) as (h & Eh & _); eauto. }
  rewrite E. eexists; split; [reflexivity|]. split.
  - apply tst_terms. apply Forall_forall. intros p Hp. destruct (B p Hp) as (o & Ho & Bo).
    destruct (Bo ps i j H Hij Hj) as (h & -> & T & _). destruct (Bc' o Ho). eapply tst_weaken; eauto.
  - intros x y n d. rewrite get_dtrans, sum_hess by (auto; lia). cbn [val]. rewrite !get_terms.
    apply Rsum_ext. intros p Hp. f_equal. destruct (B p Hp) as (o & Ho & Bo).
    destruct (Bo ps i j H Hij Hj) as (h & -> & _ & Q). cbn [val]. now rewrite Q.
Qed.

(** eval: the accumulated triple *)
Definition triple_ok (ps : list dt) (st : evalT) (V : dt) (G : nat -> dt) (H : nat -> nat -> dt) : Prop :=
  let '(v, gs, hs) := st in
  deq v V /\ length gs = length ss /\ length hs = length ss /\
  forall i, (i < length ss)%nat ->
    tst (flat (nth i ss ([], []))) [] out (nth i gs dzero) /\ deq (nth i gs dzero) (G i) /\
    length (nth i hs []) = S i /\
    forall j, (j <= i)%nat ->
      tst (flat (nth i ss ([], []))) (flat (nth j ss ([], []))) out (nth j (nth i hs []) dzero) /\
      deq (nth j (nth i hs []) dzero) (H i j).

Lemma nth_map_seq {A} (f : nat -> A) n i d : (i < n)%nat -> nth i (map f (seq 0 n)) d = f i.
Proof.
  intros H. rewrite nth_indep with (d' := f 0%nat) by now rewrite map_length, seq_length.
  now rewrite map_nth, seq_nth.
Qed.
End Sum.

Lemma has_sts_length ps ss : has_sts ps ss -> length ps = length ss.
Proof. apply Forall2_length'. Qed.

Lemma init_triple ss os ps V v : has_sts ps ss -> deq v V ->
  triple_ok ss os ps (init_eval v (length ps)) V (fun _ => dzero) (fun _ _ => dzero).
Proof.
  intros H HV. pose proof (has_sts_length _ _ H) as L. rewrite L. unfold triple_ok, init_eval. split; auto.
  rewrite repeat_length, map_length, seq_length. split; auto. split; auto.
  intros i Hi. rewrite !nth_map_seq by auto. rewrite repeat_length.
  rewrite (nth_repeat dzero (length ss) i). split; [apply tst_zero|]. split; [apply deq_refl|]. split; auto.
  intros j Hj. rewrite (nth_repeat dzero (S i) j). split; [apply tst_zero|apply deq_refl].
Qed.

Lemma sum_step ss os ps st V G H w e Va Ga Ha : has_sts ps ss ->
  triple_ok ss os ps st V G H -> triple_ok ss os ps e Va Ga Ha ->
  triple_ok ss os ps (sum_eval_step (length ps) st w e) (dadd V (dscal w Va))
     (fun i => dadd (G i) (dscal w (Ga i))) (fun i j => dadd (H i j) (dscal w (Ha i j))).
Proof.
  intros Hp. rewrite (has_sts_length _ _ Hp). destruct st as [[v gs] hs], e as [[av ags] ahs]. cbn [triple_ok sum_eval_step].
  intros (A1 & A2 & A3 & A4) (B1 & B2 & B3 & B4). split; [now apply deq_dadd; [|apply deq_dscal]|].
  rewrite !map_length, seq_length. split; auto. split; auto.
  intros i Hi. destruct (A4 i Hi) as (C1 & C2 & C3 & C4), (B4 i Hi) as (D1 & D2 & D3 & D4).
  rewrite !nth_map_seq by auto. rewrite map_length, seq_length.
  split; [now apply tst_dadd; [|apply tst_dscal]|]. split; [now apply deq_dadd; [|apply deq_dscal]|]. split; auto.
  intros j Hj. rewrite nth_map_seq by lia. destruct (C4 j Hj), (D4 j Hj).
  split; [now apply tst_dadd; [|apply tst_dscal]|]. now apply deq_dadd; [|apply deq_dscal].
Qed.

(** what an atom's eval gives, seen in the common shape *)
Lemma eval_triple ss o os f ps : ax_le (fst o) (fst (join os)) -> ax_le (snd o) (snd (join os)) ->
  eval_agrees ss o f -> has_sts ps ss ->
  exists e, f_eval f ps = Ok e /\ has_st (fst (fst e)) o /\
    triple_ok ss os ps e (val (f_call f ps)) (fun i => val (f_grad f ps i)) (fun i j => val (f_hess f ps i j)).
Proof.
  intros L1 L2 E H. destruct (E ps H) as (v & gs & hs & Ee & Hv & Qv & Lg & Lh & R).
  exists (v, gs, hs). split; auto. split; auto. cbn. split; auto. split; auto. split; auto.
  intros i Hi. destruct (R i Hi) as (R1 & R2 & R3 & R4). split; [eapply tst_weaken; eauto|].
  split; auto. split; auto. intros j Hj. destruct (R4 j Hj). split; [eapply tst_weaken; eauto|auto].
Qed.

Lemma sum_eval ss atoms os : Forall2 (fun p o => wellformed ss o (snd p)) atoms os -> broadcastable os ->
  Forall2 (fun p o => eval_agrees ss o (snd p)) atoms os ->
  eval_agrees ss (join os) (s_sum atoms 0).
Proof.
  intros W Bc E ps H.
  assert (EI : forall p, In p atoms -> exists e, f_eval (snd p) ps = Ok e /\
     triple_ok ss os ps e (val (f_call (snd p) ps)) (fun i => val (f_grad (snd p) ps i)) (fun i j => val (f_hess (snd p) ps i j))).
  { intros p Hp. destruct (Forall2_In_l _ _ _ _ E Hp) as (o & Ho & Eo).
    unfold broadcastable in Bc. rewrite Forall_forall in Bc. destruct (Bc o Ho).
    destruct (eval_triple ss o os (snd p) ps) as (e & ? & _ & ?); eauto. }
  (* the fold *)
  assert (Key : forall l st V G Hh, (forall p, In p l -> In p atoms) -> triple_ok ss os ps st V G Hh ->
    exists es, rmapM (fun '(w, a) => let! e := f_eval a ps in Ok (w, e)) l = Ok es /\
      triple_ok ss os ps (fold_left (fun st '(w, e) => sum_eval_step (length ps) st w e) es st)
        (fold_left dadd (terms l (fun a => f_call a ps)) V)
        (fun i => fold_left dadd (terms l (fun a => f_grad a ps i)) (G i))
        (fun i j => fold_left dadd (terms l (fun a => f_hess a ps i j)) (Hh i j))).
  { induction l as [|[w a] l IH]; intros st V G Hh Hl T.
    - exists []; split; auto.
    - destruct (EI (w, a)) as (e & Ee & Te); [apply Hl; cbn; auto|]. cbn [snd] in *.
      pose proof (sum_step ss os ps st V G Hh w e _ _ _ H T Te) as T'.
      destruct (IH _ _ _ _ (fun p Hp => Hl p (or_intror Hp)) T') as (es & Ees & Tes).
      exists ((w, e) :: es). split; [|exact Tes]. cbn. rewrite Ee. cbn. rewrite Ees. reflexivity. }
  destruct (Key atoms _ dzero (fun _ => dzero) (fun _ _ => dzero) (fun p Hp => Hp)
     (init_triple ss os ps dzero dzero H (deq_refl _))) as (es & Ees & T).
  (* the structure of the value *)
  assert (SV : has_st (fst (fst (fold_left (fun st '(w, e) => sum_eval_step (length ps) st w e) es (init_eval dzero (length ps))))) (join os)).
  { clear T EI Key. unfold join.
    assert (S0 : has_st (fst (fst (init_eval dzero (length ps)))) ([], [])) by apply has_st_const.
    revert es Ees S0. generalize (init_eval dzero (length ps)) (([], []) : pst).
    clear Bc W. revert E. generalize os as os'. intros os' E.
    induction E as [|[w a] o l l' Ea E' IH]; intros st o0 es Ees S0.
    - cbn in Ees. injection Ees as <-. auto.
    - cbn in Ees. destruct (Ea ps H) as (v & gs & hs & Ee & Hv & _). cbn [snd] in Ee. rewrite Ee in Ees. cbn in Ees.
      destruct (rmapM _ l) as [es'|] eqn:E2; cbn in Ees; [|discriminate]. injection Ees as <-. cbn [fold_left].
      apply (IH _ _ es' eq_refl). destruct st as [[v0 gs0] hs0]. cbn [sum_eval_step fst] in *.
      apply (has_st_dadd v0 o0 _ o); auto. }
  assert (EF : f_eval (s_sum atoms 0) ps = Ok (fold_left (fun st '(w, e) => sum_eval_step (length ps) st w e) es (init_eval dzero (length ps)))).
  { cbn. now rewrite Ees. }
  destruct (fold_left _ es _) as [[v gs] hs] eqn:EE. exists v, gs, hs.
  cbn [triple_ok fst] in *. destruct T as (T1 & T2 & T3 & T4).
  repeat match goal with |- _ /\ _ => split end; auto.
  { rewrite (sum_call ss atoms 0 os W Bc) by auto. intros x y n d. cbn [val]. rewrite get_dshift, T1. unfold dsum. lra. }
  intros i Hi. destruct (T4 i Hi) as (R1 & R2 & R3 & R4). 
  repeat match goal with |- _ /\ _ => split end; auto.
  { rewrite (sum_grad ss atoms 0 os W Bc) by auto. exact R2. }
  intros j Hj. destruct (R4 j Hj). split; auto. rewrite (sum_hess ss atoms 0 os W Bc) by auto. auto.
Qed.
