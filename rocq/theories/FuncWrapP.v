(** FuncWrap keeps derivatives right when no parameter is repeated. *)
From Verif Require Import Prelude DenseModel FuncModel AnalyticSpec FuncSpec DenseProofs FuncLemmas FuncAffine FuncSum.
From Coquelicot Require Import Coquelicot.
From Coq Require Import Reals Lra Sorted.
Import List ListNotations.
Open Scope R_scope.

Lemma Rsum_index_of (T : nat -> R) i pm : NoDup pm ->
  Rsum (fun k => if nth k pm 0%nat =? i then T k else 0) (seq 0 (length pm)) =
  match index_of i pm with Some k => T k | None => 0 end.
Proof.
  revert T; induction pm as [|h pm IH]; intros T Hn; [reflexivity|].
  inversion Hn; subst. cbn [length seq]. rewrite Rsum_cons, <- seq_shift, Rsum_map. cbn [nth index_of].
  rewrite (IH (fun k => T (S k))) by auto.
  destruct (Nat.eqb_spec h i) as [->|E].
  - destruct (index_of i pm) eqn:E; [|lra].
    exfalso. apply H1. apply index_of_lt in E as [? <-]. now apply nth_In.
  - destruct (index_of i pm); cbn; lra.
Qed.

Lemma Rsum_reindex (T : nat -> nat -> R) pm n : NoDup pm -> Forall (fun i => i < n)%nat pm ->
  Rsum (fun i => match index_of i pm with Some k => T k i | None => 0 end) (seq 0 n) =
  Rsum (fun k => T k (nth k pm 0%nat)) (seq 0 (length pm)).
Proof.
  intros Hn Hb.
  rewrite (Rsum_ext _ (fun i => Rsum (fun k => if nth k pm 0%nat =? i then T k i else 0) (seq 0 (length pm)))).
  2:{ intros i _. now rewrite (Rsum_index_of (fun k => T k i)). }
  rewrite Rsum_swap. apply Rsum_ext. intros k Hk. apply in_seq in Hk.
  assert (J : (nth k pm 0 < n)%nat) by (eapply Forall_forall in Hb; [exact Hb|]; apply nth_In; lia).
  clear Hb Hn. generalize dependent (nth k pm 0%nat). intros i0 J.
  assert (A : forall a m, (a <= i0 < a + m)%nat -> Rsum (fun i => if i0 =? i then T k i else 0) (seq a m) = T k i0).
  { intros a m; revert a; induction m as [|m IH]; intros a Ha; [lia|]. cbn [seq]. rewrite Rsum_cons.
    destruct (Nat.eqb_spec i0 a) as [->|E].
    - rewrite Rsum_zero; [lra|]. intros i Hi. apply in_seq in Hi. destruct (Nat.eqb_spec a i); [lia|auto].
    - rewrite IH by lia. lra. }
  apply A; lia.
Qed.

Lemma sorted_index pm i j k l : StronglySorted lt pm -> index_of i pm = Some k -> index_of j pm = Some l ->
  (j <= i)%nat -> (l <= k)%nat.
Proof.
  intros S Hi Hj Hl. apply index_of_lt in Hi as [Ki Hi], Hj as [Kj Hj].
  destruct (le_lt_dec l k) as [|C]; auto. exfalso.
  assert (nth k pm 0 < nth l pm 0)%nat; [|lia]. clear Hi Hj Hl.
  revert k l Ki Kj C; induction S as [|a pm S IH Ha]; intros [|k] [|l]; cbn; intros; try lia.
  - eapply Forall_forall in Ha; [exact Ha|]. apply nth_In; lia.
  - apply IH; lia.
Qed.
Lemma sorted_lt_NoDup pm : StronglySorted lt pm -> NoDup pm.
Proof.
  induction 1 as [|a l S IH Ha]; constructor; auto. intros Hi.
  eapply Forall_forall in Ha; [|exact Hi]. lia.
Qed.

Lemma has_sts_nth ps ss k : has_sts ps ss -> (k < length ss)%nat -> has_st (nth k ps dzero) (nth k ss ([],[])).
Proof. intros H; revert k; induction H; intros [|k] Hk; cbn in *; try lia; auto. apply IHForall2; lia. Qed.
Lemma deq_nth ps ps' k : Forall2 deq ps ps' -> deq (nth k ps dzero) (nth k ps' dzero).
Proof. intros H; revert k; induction H; intros [|k]; cbn; auto using deq_refl. Qed.

Section Wrap.
Context (ss : list pst) (o : pst) (w : wmap) (f : sfun).
Notation pm := (w_pm w).
Definition ssub : list pst := map (fun k => nth k ss ([], [])) pm.
Definition psub (ps : list dt) : list dt := map (fun k => nth k ps dzero) pm.
Hypothesis Hn : NoDup pm.
Hypothesis Hb : Forall (fun i => i < length ss)%nat pm.
Hypothesis Hw : wmap_ok w o.
Notation F := (s_wrap w f).
Notation out := (w_out w o).

Lemma imap_ok ps : has_sts ps ss -> imap pm ps = Ok (psub ps).
Proof.
  intros H. unfold imap, psub. apply rmapM_all_ok. intros k Hk.
  eapply Forall_forall in Hb; [|exact Hk]. unfold rnth.
  rewrite (nth_error_nth' ps dzero); auto. now rewrite (has_sts_length _ _ H).
Qed.
Lemma psub_sts ps : has_sts ps ss -> has_sts (psub ps) ssub.
Proof.
  intros H. unfold psub, ssub, has_sts. clear Hw Hn. induction pm as [|k l IH]; cbn; constructor.
  - inversion Hb; subst. now apply has_sts_nth.
  - apply IH. now inversion Hb.
Qed.
Lemma nth_ssub k : (k < length pm)%nat -> nth k ssub ([],[]) = nth (nth k pm 0%nat) ss ([],[]).
Proof.
  intros H. unfold ssub. rewrite nth_indep with (d' := (fun k => nth k ss ([],[])) 0%nat) by now rewrite map_length.
  apply (map_nth (fun k => nth k ss ([],[]))).
Qed.
Lemma nth_psub k ps : (k < length pm)%nat -> nth k (psub ps) dzero = nth (nth k pm 0%nat) ps dzero.
Proof.
  intros H. unfold psub. rewrite nth_indep with (d' := (fun k => nth k ps dzero) 0%nat) by now rewrite map_length.
  apply (map_nth (fun k => nth k ps dzero)).
Qed.
Lemma ssub_length : length ssub = length pm. Proof. apply map_length. Qed.

Lemma w_norm sx sy t x y n d : tst sx sy o t ->
  get (w_expand w t) x y n d = get t x y (wn w o n) (pull (w_dm w) d).
Proof. intros (_ & _ & H1 & H2 & _). now apply w_expand_norm. Qed.
Lemma w_norm_v v x y n d : has_st v o ->
  get (w_expand w v) x y n d = get v x y (wn w o n) (pull (w_dm w) d).
Proof. intros H. eapply w_norm, has_st_tst, H. Qed.

Section W1.
Hypothesis W : wellformed ssub o f.

Lemma wrap_call_ok ps : has_sts ps ss -> f_call F ps = Ok (w_expand w (val (f_call f (psub ps)))).
Proof.
  intros H. cbn. unfold wrap_call. rewrite imap_ok by auto. cbn. rewrite (call_ok W) by now apply psub_sts. reflexivity.
Qed.

(** the gradient of the wrapper, entry by entry *)
Definition wgrad (ps : list dt) (i : nat) : dt :=
  match index_of i pm with Some k => w_expand w (val (f_grad f (psub ps) k)) | None => dzero end.
Definition whess (ps : list dt) (i j : nat) : dt :=
  match index_of i pm, index_of j pm with
  | Some k, Some l => w_expand w (val (f_hess f (psub ps) k l))
  | _, _ => dzero
  end.

Lemma idx_lt i k : index_of i pm = Some k -> (k < length ssub)%nat /\ nth k ssub ([],[]) = nth i ss ([],[]).
Proof. intros H. apply index_of_lt in H as [H1 H2]. rewrite ssub_length. split; auto. rewrite nth_ssub; congruence. Qed.

Lemma wrap_grad_ok ps i : has_sts ps ss -> (i < length ss)%nat ->
  exists g, f_grad F ps i = Ok g /\ tst (flat (nth i ss ([],[]))) [] out g /\ deq g (wgrad ps i).
Proof.
  intros H Hi. cbn. unfold wgrad. destruct (f_nullg f) eqn:N.
  - exists dzero; split; auto. split; [apply tst_zero|]. destruct (index_of i pm) eqn:E; [|apply deq_refl].
    apply nil_deq; [apply isnil_zero|]. pose proof (wf_nullg _ _ _ W N (psub ps) n (psub_sts _ H)) as Z.
    destruct (idx_lt _ _ E) as [K1 K2].
    intros x y m d. erewrite w_norm; [apply Z|]. apply (grad_tst W); auto. now apply psub_sts.
  - unfold wrap_grad. rewrite imap_ok by auto. cbn. unfold rindex. destruct (index_of i pm) as [k|] eqn:E; cbn.
    + destruct (idx_lt _ _ E) as [K1 K2]. rewrite (grad_ok W) by (auto; now apply psub_sts). cbn.
      eexists; split; [reflexivity|]. split; [|apply deq_refl]. rewrite <- K2. apply tst_expand; auto.
      apply (grad_tst W); auto. now apply psub_sts.
    + exists dzero; split; auto. split; [apply tst_zero|apply deq_refl].
Qed.

Lemma hess_any ps k l : has_sts ps ss -> (k < length ssub)%nat -> (l < length ssub)%nat ->
  (l <= k)%nat \/ hess_both ssub o f ->
  exists h, f_hess f (psub ps) k l = Ok h /\ tst (flat (nth k ssub ([],[]))) (flat (nth l ssub ([],[]))) o h /\
    forall x y n d, get h x y n d = hess_at f (psub ps) k l x y n d.
Proof.
  intros H Hk Hl C. apply psub_sts in H. destruct (le_lt_dec l k) as [L|L].
  - exists (val (f_hess f (psub ps) k l)). split; [now apply (hess_ok W)|]. split; [now apply (hess_tst W)|].
    intros. unfold hess_at. destruct (Nat.leb_spec l k); [auto|lia].
  - destruct C as [C|C]; [lia|]. destruct (C (psub ps) k l H L Hl) as (h & E & T & Q).
    exists h. split; auto. split; auto. intros. unfold hess_at. destruct (Nat.leb_spec l k); [lia|]. now rewrite Q.
Qed.

Definition order_ok : Prop := StronglySorted lt pm \/ hess_both ssub o f.
Lemma order_pair i j k l : order_ok -> index_of i pm = Some k -> index_of j pm = Some l -> (j <= i)%nat ->
  (l <= k)%nat \/ hess_both ssub o f.
Proof. intros [S|B]; auto. intros. left. eapply sorted_index; eauto. Qed.

Lemma wrap_hess_gen ps i j : has_sts ps ss -> (i < length ss)%nat -> (j < length ss)%nat ->
  (forall k l, index_of i pm = Some k -> index_of j pm = Some l -> (l <= k)%nat \/ hess_both ssub o f) ->
  exists g, f_hess F ps i j = Ok g /\ tst (flat (nth i ss ([],[]))) (flat (nth j ss ([],[]))) out g /\
    forall x y n d, get g x y n d =
      match index_of i pm, index_of j pm with
      | Some k, Some l => hess_at f (psub ps) k l x y (wn w o n) (pull (w_dm w) d)
      | _, _ => 0
      end.
Proof.
  intros H Hi Hj C. cbn. destruct (f_nullh f) eqn:N.
  - exists dzero; split; auto. split; [apply tst_zero|]. intros x y n d. rewrite get_zero.
    destruct (index_of i pm) as [k|]; auto. destruct (index_of j pm) as [l|]; auto.
    pose proof (fun a b => wf_nullh _ _ _ W N (psub ps) a b (psub_sts _ H)) as Z.
    unfold hess_at. destruct (l <=? k)%nat; symmetry; apply Z.
  - unfold wrap_hess. rewrite imap_ok by auto. cbn. unfold rindex. destruct (index_of i pm) as [k|] eqn:E; cbn.
    2:{ exists dzero; split; auto. split; [apply tst_zero|reflexivity]. }
    destruct (index_of j pm) as [l|] eqn:E'; cbn.
    2:{ exists dzero; split; auto. split; [apply tst_zero|reflexivity]. }
    destruct (idx_lt _ _ E) as [K1 K2]. destruct (idx_lt _ _ E') as [L1 L2].
    destruct (hess_any ps k l H K1 L1 (C k l eq_refl eq_refl)) as (h & -> & T & Q). cbn.
    eexists; split; [reflexivity|]. rewrite <- K2, <- L2. split; [now apply tst_expand|].
    intros x y n d. rewrite (w_norm _ _ _ _ _ _ _ T). apply Q.
Qed.

Lemma wrap_hess_ok ps i j : order_ok -> has_sts ps ss -> (i < length ss)%nat -> (j <= i)%nat ->
  exists g, f_hess F ps i j = Ok g /\ tst (flat (nth i ss ([],[]))) (flat (nth j ss ([],[]))) out g /\
    forall x y n d, get g x y n d =
      match index_of i pm, index_of j pm with
      | Some k, Some l => hess_at f (psub ps) k l x y (wn w o n) (pull (w_dm w) d)
      | _, _ => 0
      end.
Proof.
  intros O H Hi Hj. apply wrap_hess_gen; auto; [lia|]. intros k l Ek El. eapply order_pair; eauto.
Qed.

Lemma hess_at_sym_val ps k l x y n d : k <> l -> hess_at f ps k l x y n d = hess_at f ps l k y x n d.
Proof. intros Hk. unfold hess_at. destruct (Nat.leb_spec l k), (Nat.leb_spec k l); auto; lia. Qed.

Lemma wrap_hess_at ps i j x y n d : order_ok -> has_sts ps ss ->
  (i < length ss)%nat -> (j < length ss)%nat ->
  hess_at F ps i j x y n d =
      match index_of i pm, index_of j pm with
      | Some k, Some l => hess_at f (psub ps) k l x y (wn w o n) (pull (w_dm w) d)
      | _, _ => 0
      end.
Proof.
  intros O H Hi Hj. unfold hess_at at 1. destruct (Nat.leb_spec j i).
  - destruct (wrap_hess_ok ps i j O H Hi) as (g & -> & _ & Q); [lia|]. apply Q.
  - destruct (wrap_hess_ok ps j i O H Hj) as (g & -> & _ & Q); [lia|]. cbn [val]. rewrite Q.
    destruct (index_of i pm) as [k|] eqn:E, (index_of j pm) as [l|] eqn:E'; auto.
    destruct (Nat.eq_dec k l) as [->|Hkl].
    + apply index_of_lt in E as [_ E], E' as [_ E']. lia.
    + now apply hess_at_sym_val, not_eq_sym.
Qed.

Lemma wrap_wf : order_ok -> wellformed ss out F.
Proof.
  intros O. constructor.
  - intros ps H. rewrite wrap_call_ok by auto. eexists; split; [reflexivity|].
    apply has_st_expand, (call_st W), psub_sts, H.
  - intros ps i H Hi. destruct (wrap_grad_ok ps i H Hi) as (g & ? & ? & _); eauto.
  - intros ps i j H Hi Hj. destruct (wrap_hess_ok ps i j O H Hi Hj) as (g & ? & ? & _); eauto.
  - intros ps ps' H H' E.
    assert (E' : Forall2 deq (psub ps) (psub ps')).
    { unfold psub. clear - E. induction pm; cbn; constructor; auto. now apply deq_nth. }
    destruct (wf_ext _ _ _ W _ _ (psub_sts _ H) (psub_sts _ H') E') as (E1 & E2 & E3).
    split; [|split].
    + rewrite !wrap_call_ok by auto. intros x y n d. cbn [val].
      rewrite !w_norm_v by (apply (call_st W), psub_sts; auto). apply E1.
    + intros i Hi. destruct (wrap_grad_ok ps i H Hi) as (g & -> & _ & Q), (wrap_grad_ok ps' i H' Hi) as (g' & -> & _ & Q').
      cbn [val]. eapply deq_trans; [exact Q|]. eapply deq_trans; [|apply deq_sym, Q'].
      unfold wgrad. destruct (index_of i pm) as [k|] eqn:Ek; [|apply deq_refl]. destruct (idx_lt _ _ Ek) as [K1 _].
      intros x y n d. erewrite !w_norm by (apply (grad_tst W); auto; now apply psub_sts). now apply E2.
    + intros i j Hi Hj x y n d.
      destruct (wrap_hess_ok ps i j O H Hi Hj) as (g & -> & _ & Q), (wrap_hess_ok ps' i j O H' Hi Hj) as (g' & -> & _ & Q').
      cbn [val]. rewrite Q, Q'. destruct (index_of i pm) as [k|] eqn:Ek; auto. destruct (index_of j pm) as [l|] eqn:El; auto.
      destruct (idx_lt _ _ Ek) as [K1 _], (idx_lt _ _ El) as [L1 _].
      unfold hess_at. destruct (Nat.leb_spec l k); apply E3; auto; lia.
  - cbn. intros E ps i H. rewrite E. apply isnil_zero.
  - cbn. intros E ps i j H. rewrite E. apply isnil_zero.
  - cbn. intros E ps i j H. destruct (f_nullh f); [apply isnil_zero|].
    unfold wrap_hess. rewrite (imap_ok ps) by auto. cbn [rbind].
    unfold rindex. destruct (index_of i _) as [k|]; cbn [rbind catch_value val]; [|apply isnil_zero].
    destruct (index_of j _) as [l|]; cbn [rbind catch_value val]; [|apply isnil_zero].
    pose proof (wf_nullgh _ _ _ W E (psub ps) k l (psub_sts _ H)) as N.
    destruct (f_hess f (psub ps) k l) as [h|e]; cbn in *; [now apply isnil_expand|]. destruct e; apply isnil_zero.
Qed.
End W1.

Lemma psub_curve c v t : smooth_curve ss c v t -> smooth_curve ssub (fun s => psub (c s)) (fun k => v (nth k pm 0%nat)) t.
Proof.
  intros [C1 C2]. split; [intros; now apply psub_sts|]. intros k x Hk Hx. rewrite ssub_length in Hk.
  rewrite nth_ssub in Hx by auto.
  eapply is_derive_ext; [intros s; now rewrite nth_psub|]. apply C2; auto.
  eapply Forall_forall in Hb; [exact Hb|]. now apply nth_In.
Qed.

Lemma pairing_reindex G v :
  pairing ssub G (fun k => v (nth k pm 0%nat)) =
  pairing ss (fun i x => match index_of i pm with Some k => G k x | None => 0 end) v.
Proof.
  unfold pairing. rewrite ssub_length.
  rewrite (Rsum_ext _ (fun k => (fun k i => Rsum (fun x => G k x * v i x) (indices (flat (nth i ss ([],[]))))) k (nth k pm 0%nat))).
  2:{ intros k Hk. apply in_seq in Hk. rewrite nth_ssub by lia. reflexivity. }
  rewrite <- (Rsum_reindex (fun k i => Rsum (fun x => G k x * v i x) (indices (flat (nth i ss ([],[]))))) pm (length ss)); auto.
  apply Rsum_ext; intros i _. destruct (index_of i pm); auto.
  symmetry. apply Rsum_zero; intros; ring.
Qed.

Lemma wrap_correct D : order_ok -> correct ssub o D f -> correct ss out (fun ps => D (psub ps)) F.
Proof.
  intros O [W G Hs S]. constructor.
  - now apply wrap_wf.
  - intros c v t Hc HD n d Hnn Hdd.
    eapply is_derive_ext with (f := fun s => get (val (f_call f (psub (c s)))) [] [] (wn w o n) (pull (w_dm w) d)).
    { intros s. rewrite wrap_call_ok by (auto; apply Hc). cbn [val]. rewrite w_norm_v; auto.
      apply (call_st W), psub_sts, Hc. }
    eapply is_derive_eq; [apply (G _ _ t (psub_curve _ _ _ Hc) HD); [now apply wn_in|now apply wd_in]|].
    rewrite pairing_reindex. apply pairing_ext. intros i x Hi Hx.
    destruct (wrap_grad_ok W (c t) i) as (g & -> & _ & Q); [apply Hc|auto|]. cbn [val]. rewrite Q. unfold wgrad.
    destruct (index_of i pm) as [k|] eqn:E; [|reflexivity]. destruct (idx_lt _ _ E).
    erewrite w_norm by (apply (grad_tst W); auto; apply psub_sts, Hc). reflexivity.
  - intros c v t Hc HD i x n d Hi Hx Hnn Hdd. destruct (index_of i pm) as [k|] eqn:E.
    + destruct (idx_lt _ _ E) as [K1 K2].
      eapply is_derive_ext with (f := fun s => get (val (f_grad f (psub (c s)) k)) x [] (wn w o n) (pull (w_dm w) d)).
      { intros s. destruct (wrap_grad_ok W (c s) i) as (g & -> & _ & Q); [apply Hc|auto|]. cbn [val]. rewrite Q.
        unfold wgrad. rewrite E. erewrite w_norm by (apply (grad_tst W); auto; apply psub_sts, Hc). reflexivity. }
      eapply is_derive_eq; [apply (Hs _ _ t (psub_curve _ _ _ Hc) HD k x); auto; [congruence|now apply wn_in|now apply wd_in]|].
      rewrite pairing_reindex. apply pairing_ext. intros j y Hj Hy.
      rewrite wrap_hess_at; auto; [|apply Hc]. rewrite E. reflexivity.
    + eapply is_derive_ext with (f := fun s => 0).
      { intros s. destruct (wrap_grad_ok W (c s) i) as (g & -> & _ & Q); [apply Hc|auto|]. cbn [val]. rewrite Q.
        unfold wgrad. rewrite E. reflexivity. }
      eapply is_derive_eq; [apply D_const|]. rewrite <- (pairing_zero ss v). apply pairing_ext. intros j y Hj Hy.
      rewrite wrap_hess_at; auto; [|apply Hc]. rewrite E. reflexivity.
  - intros ps i H Hi x y n d. rewrite get_dtrans.
    destruct (wrap_hess_ok W ps i i O H Hi (le_n i)) as (g & -> & _ & Q). cbn [val]. rewrite !Q.
    destruct (index_of i pm) as [k|] eqn:E; auto. destruct (idx_lt _ _ E) as [K1 K2].
    unfold hess_at. rewrite Nat.leb_refl. apply S; auto. now apply psub_sts.
Qed.

Lemma wrap_both : wellformed ssub o f -> hess_both ssub o f -> hess_both ss out F.
Proof.
  intros W B ps i j H Hij Hj.
  destruct (wrap_hess_gen W ps i j H) as (g & E & T & Q); [lia|auto|auto|].
  exists g. split; auto. split; auto. intros x y n d. rewrite get_dtrans.
  destruct (wrap_hess_gen W ps j i H) as (g' & -> & T' & Q'); [lia|lia|auto|]. cbn [val]. rewrite Q, Q'.
  destruct (index_of i pm) as [k|] eqn:Ek, (index_of j pm) as [l|] eqn:El; auto.
  apply hess_at_sym_val. intros ->. apply index_of_lt in Ek as [_ Ek], El as [_ El]. lia.
Qed.

Lemma rnth_ok {A} (l : list A) k d : (k < length l)%nat -> rnth l k = Ok (nth k l d).
Proof. intros H. unfold rnth. now rewrite (nth_error_nth' l d). Qed.

Lemma deq_expand sx sy sx' sy' t t' : tst sx sy o t -> tst sx' sy' o t' -> deq t t' -> deq (w_expand w t) (w_expand w t').
Proof. intros T T' Q x y n d. rewrite (w_norm _ _ _ _ _ _ _ T), (w_norm _ _ _ _ _ _ _ T'). apply Q. Qed.

Lemma wrap_eval_agrees : StronglySorted lt pm \/ f_nullh f = true -> order_ok ->
  wellformed ssub o f -> eval_agrees ssub o f -> eval_agrees ss out F.
Proof.
  intros C O W E ps H. destruct (E (psub ps) (psub_sts _ H)) as (v & gs & hs & Ee & Hv & Qv & Lg & Lh & R).
  rewrite ssub_length in *.
  pose proof (has_sts_length _ _ H) as LP.
  assert (RG : forall i, (i < length ss)%nat -> forall k, index_of i pm = Some k ->
     rnth gs k = Ok (nth k gs dzero) /\ tst (flat (nth i ss ([],[]))) [] out (w_expand w (nth k gs dzero)) /\
       deq (w_expand w (nth k gs dzero)) (val (f_grad F ps i))).
  { intros i Hi k Ek. destruct (idx_lt _ _ Ek) as [K1 K2]. rewrite ssub_length in K1.
    destruct (R k K1) as (R1 & R2 & _). split; [apply rnth_ok; lia|].
    split; [rewrite <- K2; now apply tst_expand|].
    destruct (wrap_grad_ok W ps i H Hi) as (g' & -> & _ & Q). cbn [val].
    eapply deq_trans; [|apply deq_sym, Q]. unfold wgrad. rewrite Ek. eapply deq_expand; eauto.
    apply (grad_tst W); [now apply psub_sts|]. now rewrite ssub_length. }
  pose (Gf := fun i => match index_of i pm with None => dzero | Some k => w_expand w (nth k gs dzero) end).
  assert (GT : forall i, (i < length ss)%nat -> tst (flat (nth i ss ([],[]))) [] out (Gf i) /\ deq (Gf i) (val (f_grad F ps i))).
  { intros i Hi. unfold Gf. destruct (index_of i pm) as [k|] eqn:Ek; [now apply RG|].
    split; [apply tst_zero|]. destruct (wrap_grad_ok W ps i H Hi) as (g' & -> & _ & Q). cbn [val].
    apply deq_sym. eapply deq_trans; [exact Q|]. unfold wgrad. rewrite Ek. apply deq_refl. }
  assert (SV : has_st (w_expand w v) out) by now apply has_st_expand.
  assert (DV : deq (w_expand w v) (val (f_call F ps))).
  { rewrite wrap_call_ok by auto. cbn [val]. eapply deq_expand; eauto; apply has_st_tst; auto.
    apply (call_st W), psub_sts, H. }
  destruct (f_nullh f) eqn:N.
  - (* null Hessian *)
    assert (EG : rmapM (fun i => match index_of i pm with
                               | None => Ok dzero
                               | Some k => let! g := rnth gs k in Ok (w_expand w g)
                               end) (seq 0 (length ps)) = Ok (map Gf (seq 0 (length ps)))).
    { apply rmapM_all_ok. intros i Hi. apply in_seq in Hi. rewrite LP in Hi. unfold Gf.
      destruct (index_of i pm) as [k|] eqn:Ek; auto. destruct (RG i (proj2 Hi) k Ek) as (-> & _). reflexivity. }
    exists (w_expand w v), (map Gf (seq 0 (length ps))), (map (fun i => repeat dzero (S i)) (seq 0 (length ps))).
    split; [cbn [f_eval s_wrap]; unfold wrap_eval; rewrite imap_ok by auto; cbn [rbind]; rewrite Ee; cbn [rbind];
      rewrite N, EG; reflexivity|].
    split; auto. split; auto. rewrite !map_length, seq_length, LP. split; auto. split; auto.
    intros i Hi. rewrite !nth_map_seq by auto. destruct (GT i Hi). split; auto. split; auto.
    rewrite repeat_length. split; auto. intros j Hj. rewrite (nth_repeat dzero (S i) j). split; [apply tst_zero|].
    cbn. rewrite N. apply deq_refl.
  - destruct C as [C|C]; [|discriminate].
    pose (Hf := fun i j => match index_of i pm, index_of j pm with
                           | Some k, Some l => w_expand w (nth l (nth k hs []) dzero)
                           | _, _ => dzero end).
    assert (RH : forall i j, (i < length ss)%nat -> (j <= i)%nat -> forall k l, index_of i pm = Some k -> index_of j pm = Some l ->
       rnth hs k = Ok (nth k hs []) /\ rnth (nth k hs []) l = Ok (nth l (nth k hs []) dzero)).
    { intros i j Hi Hj k l Ek El. destruct (idx_lt _ _ Ek) as [K1 K2]. rewrite ssub_length in K1.
      destruct (R k K1) as (_ & _ & R3 & _). split; [apply rnth_ok; lia|].
      apply rnth_ok. rewrite R3. pose proof (sorted_index _ _ _ _ _ C Ek El Hj). lia. }
    assert (HT : forall i j, (i < length ss)%nat -> (j <= i)%nat ->
       tst (flat (nth i ss ([],[]))) (flat (nth j ss ([],[]))) out (Hf i j) /\ deq (Hf i j) (val (f_hess F ps i j))).
    { intros i j Hi Hj. destruct (wrap_hess_ok W ps i j O H Hi Hj) as (g' & -> & _ & Q). cbn [val]. unfold Hf.
      destruct (index_of i pm) as [k|] eqn:Ek.
      2:{ split; [apply tst_zero|]. intros x y n d. now rewrite Q. }
      destruct (index_of j pm) as [l|] eqn:El.
      2:{ split; [apply tst_zero|]. intros x y n d. now rewrite Q. }
      destruct (idx_lt _ _ Ek) as [K1 K2], (idx_lt _ _ El) as [L1 L2]. rewrite ssub_length in K1.
      pose proof (sorted_index _ _ _ _ _ C Ek El Hj) as Lkl.
      destruct (R k K1) as (_ & _ & R3 & R4). destruct (R4 l Lkl) as (T & Q2).
      split; [rewrite <- K2, <- L2; now apply tst_expand|]. intros x y n d. rewrite Q, (w_norm _ _ _ _ _ _ _ T), Q2.
      unfold hess_at. destruct (Nat.leb_spec l k); [auto|lia]. }
    assert (ER : rmapM (wrap_eval_row w gs hs) (seq 0 (length ps)) =
       Ok (map (fun i => (Gf i, map (Hf i) (seq 0 (S i)))) (seq 0 (length ps)))).
    { apply rmapM_all_ok. intros i Hi. apply in_seq in Hi. rewrite LP in Hi. destruct Hi as [_ Hi]. cbn in Hi.
      unfold wrap_eval_row, Gf. destruct (index_of i pm) as [k|] eqn:Ek.
      - destruct (RG i Hi k Ek) as (-> & _). cbn [rbind].
        rewrite rmapM_all_ok with (g := Hf i).
        2:{ intros j Hj. apply in_seq in Hj. unfold Hf. rewrite Ek. destruct (index_of j pm) as [l|] eqn:El; auto.
            destruct (RH i j Hi) with (k := k) (l := l) as (-> & E2); auto; [lia|]. cbn [rbind]. rewrite E2. reflexivity. }
        cbn [rbind]. destruct (RH i i Hi (le_n i) k k Ek Ek) as (-> & E2). cbn [rbind]. rewrite E2. cbn [rbind].
        rewrite seq_S, map_app. cbn [map Nat.add]. unfold Hf at 3. rewrite Ek. reflexivity.
      - f_equal. f_equal. unfold Hf. rewrite Ek. rewrite <- (seq_length (S i) 0) at 1.
        generalize (seq 0 (S i)). induction l; cbn; auto. now f_equal. }
    exists (w_expand w v), (map Gf (seq 0 (length ps))), (map (fun i => map (Hf i) (seq 0 (S i))) (seq 0 (length ps))).
    split.
    { cbn [f_eval s_wrap]; unfold wrap_eval; rewrite imap_ok by auto; cbn [rbind]; rewrite Ee; cbn [rbind].
      rewrite N, ER. cbn [rbind]. now rewrite !map_map. }
    split; auto. split; auto. rewrite !map_length, seq_length, LP. split; auto. split; auto.
    intros i Hi. rewrite !nth_map_seq by auto. destruct (GT i Hi). split; auto. split; auto.
    rewrite map_length, seq_length. split; auto. intros j Hj. rewrite nth_map_seq by lia. now apply HT.
Qed.
End Wrap.
