(** Compose: the chain rule to second order. *)
From Verif Require Import Prelude DenseModel FuncModel AnalyticSpec FuncSpec DenseProofs FuncLemmas FuncAffine FuncSum FuncWrapP.
From Coquelicot Require Import Coquelicot.
From Coq Require Import Reals Lra.
Import List ListNotations.
Open Scope R_scope.

Lemma rmapM_enum {A B} (F : nat * A -> res B) (T : nat -> B) (l : list A) :
  (forall k a, nth_error l k = Some a -> F (k, a) = Ok (T k)) ->
  rmapM F (enum l) = Ok (map T (seq 0 (length l))).
Proof.
  intros H. unfold enum.
  assert (G : forall b m, (forall k a, nth_error m k = Some a -> F ((b + k)%nat, a) = Ok (T (b + k)%nat)) ->
     rmapM F (combine (seq b (length m)) m) = Ok (map T (seq b (length m)))).
  { intros b m; revert b; induction m as [|a m IH]; intros b Hb; cbn; auto.
    specialize (Hb 0%nat a eq_refl) as H0. rewrite Nat.add_0_r in H0. rewrite H0. cbn.
    rewrite IH; auto. intros k a' Hk. specialize (Hb (S k) a' Hk). now rewrite Nat.add_succ_r in Hb. }
  apply G; auto.
Qed.

Lemma Forall2_nth {A B} (P : A -> B -> Prop) l l' k a b :
  Forall2 P l l' -> (k < length l)%nat -> P (nth k l a) (nth k l' b).
Proof.
  intros H; revert k; induction H as [|x y l l' Hx H IH]; cbn; intros k Hk; [lia|].
  destruct k; auto. apply IH; lia.
Qed.
Lemma Rsum_flat_map {A B} (F : B -> R) (h : A -> list B) (l : list A) :
  Rsum F (flat_map h l) = Rsum (fun a => Rsum F (h a)) l.
Proof. induction l as [|a l IH]; auto. cbn [flat_map]. now rewrite Rsum_app, Rsum_cons, IH. Qed.
Lemma calls_sts gs os ss ps : Forall2 (fun g o => wellformed ss o g) gs os -> has_sts ps ss ->
  has_sts (map (fun g => val (f_call g ps)) gs) os.
Proof. intros W H. induction W as [|g o l l' Ho W' IH]; cbn; constructor; auto. now apply (call_st Ho). Qed.

Definition fnull : sfun := s_Constant [] (fun _ => 0).

Lemma tst_ny sx out g x y n d : tst sx [] out g -> get g x y n d = get g x [] n d.
Proof. intros (_ & [E|E] & _); unfold get; now rewrite E. Qed.
Lemma parr_get p o N : has_st p o -> In N (indices (flat o)) ->
  parr p N = get p [] [] (firstn (length (fst o)) N) (skipn (length (fst o)) N).
Proof.
  intros (E1 & E2 & E3 & E4) H. unfold parr. now rewrite E3.
Qed.
Lemma hess_at_sym ss f ps k l x y n d : hess_sym ss f -> has_sts ps ss -> (k < length ss)%nat ->
  hess_at f ps k l x y n d = hess_at f ps l k y x n d.
Proof.
  intros S H Hk. destruct (Nat.eq_dec k l) as [<-|D]; [|now apply hess_at_sym_val].
  unfold hess_at. rewrite Nat.leb_refl. now apply S.
Qed.

Lemma Forall2_map_seq {A B} (P : A -> B -> Prop) (F : nat -> A) l d :
  (forall k, (k < length l)%nat -> P (F k) (nth k l d)) -> Forall2 P (map F (seq 0 (length l))) l.
Proof.
  revert F; induction l as [|b l IH]; intros F H; cbn [length seq map]; constructor.
  - apply (H 0%nat); cbn; lia.
  - rewrite <- seq_shift, map_map. apply IH. intros k Hk. apply (H (S k)); cbn; lia.
Qed.
Lemma combine_map_same {A B C} (F : A -> B) (G : A -> C) l : combine (map F l) (map G l) = map (fun a => (F a, G a)) l.
Proof. induction l; cbn; congruence. Qed.
Lemma nth_error_map_seq {A} (F : nat -> A) n k a : nth_error (map F (seq 0 n)) k = Some a -> (k < n)%nat /\ a = F k.
Proof.
  intros H. assert (L : (k < n)%nat).
  { rewrite <- (seq_length n 0), <- (map_length F). apply nth_error_Some. congruence. }
  split; auto. apply nth_error_nth with (d := a) in H. rewrite <- H. rewrite nth_map_seq; auto.
Qed.

Section Compose.
Context (ss os : list pst) (out : pst) (f : sfun) (gs : list sfun).
Notation m := (length gs).
Notation gk k := (nth k gs fnull).
Notation ok k := (nth k os ([], [])).
Notation si i := (flat (nth i ss ([], []))).
Hypothesis Wf : wellformed os out f.
Hypothesis Wg : Forall2 (fun g o => wellformed ss o g) gs os.
Notation C := (s_compose f gs).

Definition gvs (ps : list dt) : list dt := map (fun g => val (f_call g ps)) gs.

Lemma m_len : length os = m.
Proof. symmetry; now apply (Forall2_length' _ _ _ Wg). Qed.
Lemma Wgk k : (k < m)%nat -> wellformed ss (ok k) (gk k).
Proof.
  intros H. exact (Forall2_nth _ _ _ k fnull ([],[]) Wg H).
Qed.
Lemma gvs_ok ps : has_sts ps ss -> rmapM (fun g => f_call g ps) gs = Ok (gvs ps).
Proof.
  intros H. unfold gvs. apply rmapM_all_ok. intros g Hg.
  destruct (Forall2_In_l _ _ _ _ Wg Hg) as (o & _ & Wo). now apply (call_ok Wo).
Qed.
Lemma gvs_sts ps : has_sts ps ss -> has_sts (gvs ps) os.
Proof.
  intros H. now apply (calls_sts gs os ss).
Qed.
Lemma nth_gvs k ps : (k < m)%nat -> nth k (gvs ps) dzero = val (f_call (gk k) ps).
Proof.
  intros H. unfold gvs. rewrite nth_indep with (d' := (fun g => val (f_call g ps)) fnull) by now rewrite map_length.
  apply (map_nth (fun g => val (f_call g ps))).
Qed.
Lemma nth_error_gk k g : nth_error gs k = Some g -> (k < m)%nat /\ g = gk k.
Proof.
  intros H. split; [apply nth_error_Some; congruence|]. symmetry. now apply nth_error_nth.
Qed.

Definition df ps k : dt := val (f_grad f (gvs ps) k).
Definition dg ps k i : dt := val (f_grad (gk k) ps i).
(** splitting of an index of the value of g_k into features and dims *)
Definition N1 k (N : idx) : idx := firstn (length (fst (ok k))) N.
Definition N2 k (N : idx) : idx := skipn (length (fst (ok k))) N.
Definition G ps k i (x N : idx) : R := get (dg ps k i) x [] (N1 k N) (N2 k N).

(** the gradient, entry by entry *)
Definition CG ps i (x n d : idx) : R :=
  Rsum (fun k => Rsum (fun N => G ps k i x N * get (df ps k) N [] n d) (indices (flat (ok k)))) (seq 0 m).
(** the Hessian, entry by entry *)
Definition CH ps i j (x y n d : idx) : R :=
  Rsum (fun k =>
    Rsum (fun l => Rsum (fun M => G ps l j y M *
       Rsum (fun N => G ps k i x N * hess_at f (gvs ps) k l N M n d) (indices (flat (ok k))))
       (indices (flat (ok l)))) (seq 0 m) +
    Rsum (fun N => hess_at (gk k) ps i j x y (N1 k N) (N2 k N) * get (df ps k) N [] n d) (indices (flat (ok k))))
  (seq 0 m).

Lemma df_tst ps k : has_sts ps ss -> (k < m)%nat -> tst (flat (ok k)) [] out (df ps k).
Proof. intros H Hk. apply (grad_tst Wf); [now apply gvs_sts|]. now rewrite m_len. Qed.
Lemma dg_tst ps k i : has_sts ps ss -> (k < m)%nat -> (i < length ss)%nat -> tst (si i) [] (ok k) (dg ps k i).
Proof. intros H Hk Hi. now apply (grad_tst (Wgk k Hk)). Qed.

Lemma compose_call_ok ps : has_sts ps ss -> f_call C ps = Ok (val (f_call f (gvs ps))).
Proof.
  intros H. cbn. unfold compose_call. rewrite gvs_ok by auto. cbn. apply (call_ok Wf). now apply gvs_sts.
Qed.

Lemma compose_grad_ok ps i : has_sts ps ss -> (i < length ss)%nat ->
  exists g, f_grad C ps i = Ok g /\ tst (si i) [] out g /\ forall x n d, get g x [] n d = CG ps i x n d.
Proof.
  intros H Hi. cbn. destruct (f_nullg f) eqn:Nu.
  - exists dzero. split; auto. split; [apply tst_zero|]. intros x n d. rewrite get_zero. symmetry.
    unfold CG. apply Rsum_zero; intros k _. apply Rsum_zero; intros N _.
    unfold df. rewrite (wf_nullg _ _ _ Wf Nu _ k (gvs_sts _ H)). ring.
  - unfold compose_grad. rewrite gvs_ok by auto. cbn [rbind].
    rewrite rmapM_enum with (T := fun k => ddot_left (df ps k) (ddrop (dg ps k i))).
    2:{ intros k g Hk. apply nth_error_gk in Hk as [Hk ->].
        rewrite (grad_ok Wf) by (rewrite ?m_len; auto using gvs_sts). cbn [rbind].
        rewrite (grad_ok (Wgk k Hk)) by auto. reflexivity. }
    cbn [rbind]. eexists; split; [reflexivity|]. split.
    + apply tst_dsum, Forall_map, Forall_forall. intros k Hk. apply in_seq in Hk.
      eapply tst_dot_left; [apply df_tst|apply dg_tst]; auto; lia.
    + intros x n d. rewrite get_dsum, Rsum_map. unfold CG. apply Rsum_ext; intros k Hk. apply in_seq in Hk.
      rewrite (dot_left_norm [] (ok k) out _ (si i) []); [reflexivity|apply df_tst|apply dg_tst]; auto; lia.
Qed.

Lemma tst_hess_f ps k l : has_sts ps ss -> (k < m)%nat -> (l < m)%nat ->
  exists h, (if Nat.ltb k l then let! h := f_hess f (gvs ps) l k in Ok (dtrans h) else f_hess f (gvs ps) k l) = Ok h /\
    tst (flat (ok k)) (flat (ok l)) out h /\
    forall N M n d, get h N M n d = hess_at f (gvs ps) k l N M n d.
Proof.
  intros H Hk Hl. apply gvs_sts in H. pose proof m_len. destruct (Nat.ltb_spec k l) as [L|L].
  - rewrite (hess_ok Wf) by (auto; lia). cbn. eexists; split; [reflexivity|]. split.
    + apply tst_dtrans. apply (hess_tst Wf); auto; lia.
    + intros. unfold hess_at. destruct (Nat.leb_spec l k); [lia|reflexivity].
  - rewrite (hess_ok Wf) by (auto; lia). eexists; split; [reflexivity|]. split.
    + apply (hess_tst Wf); auto; lia.
    + intros. unfold hess_at. destruct (Nat.leb_spec l k); [reflexivity|lia].
Qed.

Lemma nth_rnth_map {A B} (F : A -> B) (l : list A) k a d : nth_error l k = Some a -> rnth (map F l) k = Ok (F (nth k l d)).
Proof.
  intros H. unfold rnth. rewrite nth_error_map, H. cbn. now rewrite (nth_error_nth _ _ _ H).
Qed.

Definition hess_avail ps i j : Prop := forall k, (k < m)%nat ->
  exists h, f_hess (gk k) ps i j = Ok h /\ tst (si i) (si j) (ok k) h /\
    forall x y n d, get h x y n d = hess_at (gk k) ps i j x y n d.

Lemma compose_hess_gen ps i j : has_sts ps ss -> (i < length ss)%nat -> (j < length ss)%nat -> hess_avail ps i j ->
  exists g, f_hess C ps i j = Ok g /\ tst (si i) (si j) out g /\ forall x y n d, get g x y n d = CH ps i j x y n d.
Proof.
  intros H Hi Hj A. cbn. pose proof (gvs_sts _ H) as Hv. pose proof m_len as Lm.
  destruct (f_nullg f) eqn:Nu; [|destruct (f_nullh f) eqn:Nh].
  - (* null gradient: the Hessian of f vanishes as well *)
    exists dzero. split; auto. split; [apply tst_zero|].
    intros x y n d. rewrite get_zero. symmetry. unfold CH. apply Rsum_zero; intros k _.
    rewrite !Rsum_zero; [lra|..].
    + intros N _. unfold df. rewrite (wf_nullg _ _ _ Wf Nu _ k Hv). ring.
    + intros l _. apply Rsum_zero; intros M _. rewrite Rsum_zero; [ring|]. intros N _.
      unfold hess_at. destruct (l <=? k)%nat; rewrite (wf_nullgh _ _ _ Wf Nu _ _ _ Hv); ring.
  - unfold compose_hess_null. rewrite gvs_ok by auto. cbn [rbind].
    assert (E : rmapM (fun '(k, g) => let! df := f_grad f (gvs ps) k in let! hg := f_hess g ps i j in
        Ok (ddot_right df (ddrop hg))) (enum gs) =
        Ok (map (fun k => ddot_right (df ps k) (ddrop (val (f_hess (gk k) ps i j)))) (seq 0 m))).
    { apply rmapM_enum. intros k g Hk. apply nth_error_gk in Hk as [Hk ->].
      rewrite (grad_ok Wf) by (auto; lia). cbn [rbind]. destruct (A k Hk) as (h & -> & _). reflexivity. }
    rewrite E. cbn [rbind]. eexists; split; [reflexivity|]. split.
    + apply tst_dsum, Forall_map, Forall_forall. intros k Hk. apply in_seq in Hk.
      destruct (A k ltac:(lia)) as (h & -> & T & _). cbn [val].
      eapply tst_dot_right; [apply df_tst; auto; lia|exact T].
    + intros x y n d. rewrite get_dsum, Rsum_map. unfold CH. apply Rsum_ext; intros k Hk. apply in_seq in Hk.
      destruct (A k ltac:(lia)) as (h & -> & T & Q). cbn [val].
      rewrite (dot_right_norm (ok k) out _ (si i) (si j)); auto; [|apply df_tst; auto; lia].
      rewrite (Rsum_zero (fun l => Rsum _ _)).
      2:{ intros l _. apply Rsum_zero; intros M _. rewrite Rsum_zero; [ring|]. intros N _.
          unfold hess_at. destruct (l <=? k)%nat; rewrite (wf_nullh _ _ _ Wf Nh _ _ _ Hv); ring. }
      rewrite Rplus_0_l. apply Rsum_ext; intros N _. now rewrite Q.
  - unfold compose_hess. rewrite gvs_ok by auto. cbn [rbind].
    assert (E : forall i', (i' < length ss)%nat -> rmapM (fun g => let! d := f_grad g ps i' in Ok (ddrop d)) gs =
       Ok (map (fun g => ddrop (val (f_grad g ps i'))) gs)).
    { intros i' Hi'. apply rmapM_all_ok. intros g Hg. destruct (Forall2_In_l _ _ _ _ Wg Hg) as (o & _ & Wo).
      now rewrite (grad_ok Wo). }
    rewrite E by auto. cbn [rbind].
    assert (E' : (if (i =? j)%nat then Ok (map (fun g => ddrop (val (f_grad g ps i))) gs)
      else rmapM (fun g => let! d := f_grad g ps j in Ok (ddrop d)) gs) = Ok (map (fun g => ddrop (val (f_grad g ps j))) gs)).
    { destruct (Nat.eqb_spec i j) as [->|]; auto. }
    rewrite E'. cbn [rbind].
    (* pieces chosen once *)
    pose (fh := fun k l => val (if Nat.ltb k l then let! h := f_hess f (gvs ps) l k in Ok (dtrans h) else f_hess f (gvs ps) k l)).
    pose (hg := fun k => val (f_hess (gk k) ps i j)).
    match goal with |- context [rmapM ?F (enum gs)] =>
      assert (E2 : rmapM F (enum gs) = Ok (map (fun k =>
         map (fun l => quad_term (fh k l) (ddrop (dg ps k i)) (ddrop (dg ps l j))) (seq 0 m) ++
         (ddot_right (df ps k) (ddrop (hg k)) :: nil)) (seq 0 m))) end.
    { apply rmapM_enum. intros k g Hk. destruct (nth_error_gk _ _ Hk) as [Hk' ->].
      match goal with |- context [rmapM ?F (enum gs)] =>
        assert (E3 : rmapM F (enum gs) = Ok (map (fun l => quad_term (fh k l) (ddrop (dg ps k i)) (ddrop (dg ps l j))) (seq 0 m))) end.
      { apply rmapM_enum. intros l g' Hl. destruct (nth_error_gk _ _ Hl) as [Hl' ->].
        unfold fh. destruct (tst_hess_f ps k l H Hk' Hl') as (h & -> & _). cbn [rbind val].
        erewrite !nth_rnth_map by eassumption. reflexivity. }
      rewrite E3. cbn [rbind]. rewrite (grad_ok Wf) by (auto; lia). cbn [rbind].
      unfold hg. destruct (A k Hk') as (h & -> & _). reflexivity. }
    rewrite E2. cbn [rbind]. eexists; split; [reflexivity|].
    assert (HF : forall k l, (k < m)%nat -> (l < m)%nat -> tst (flat (ok k)) (flat (ok l)) out (fh k l) /\
       forall N M n d, get (fh k l) N M n d = hess_at f (gvs ps) k l N M n d).
    { intros k l Hk Hl. unfold fh. destruct (tst_hess_f ps k l H Hk Hl) as (h & -> & ? & ?). auto. }
    assert (HG : forall k, (k < m)%nat -> tst (si i) (si j) (ok k) (hg k) /\
       forall x y n d, get (hg k) x y n d = hess_at (gk k) ps i j x y n d).
    { intros k Hk. unfold hg. destruct (A k Hk) as (h & -> & ? & ?). auto. }
    split.
    + apply tst_dsum. apply Forall_concat, Forall_map, Forall_forall. intros k Hk. apply in_seq in Hk.
      apply Forall_app. split.
      * apply Forall_map, Forall_forall. intros l Hl. apply in_seq in Hl.
        apply (tst_quad (ok k) (ok l)); [apply HF; lia|apply dg_tst; auto; lia|apply dg_tst; auto; lia].
      * constructor; auto. eapply tst_dot_right; [apply df_tst; auto; lia|apply HG; lia].
    + intros x y n d. rewrite get_dsum, <- flat_map_concat_map.
      rewrite (Rsum_flat_map _ (fun k => _) (seq 0 m)). unfold CH. apply Rsum_ext; intros k Hk. apply in_seq in Hk.
      rewrite Rsum_app, Rsum_map, Rsum_cons, Rsum_nil, Rplus_0_r. f_equal.
      * apply Rsum_ext; intros l Hl. apply in_seq in Hl.
        rewrite (quad_norm (ok k) (ok l) out _ (si i) _ (si j)); [|apply HF; lia|apply dg_tst; auto; lia|apply dg_tst; auto; lia].
        apply Rsum_ext; intros M _. f_equal. apply Rsum_ext; intros N _. f_equal. apply HF; lia.
      * rewrite (dot_right_norm (ok k) out _ (si i) (si j)); [|apply df_tst; auto; lia|apply HG; lia].
        apply Rsum_ext; intros N _. f_equal. apply HG; lia.
Qed.

Lemma avail_low ps i j : has_sts ps ss -> (i < length ss)%nat -> (j <= i)%nat -> hess_avail ps i j.
Proof.
  intros H Hi Hj k Hk. destruct (wf_hess _ _ _ (Wgk k Hk) ps i j H Hi Hj) as (h & E & T). exists h. split; auto. split; auto.
  intros. unfold hess_at. destruct (Nat.leb_spec j i); [|lia]. now rewrite E.
Qed.
Lemma compose_hess_ok ps i j : has_sts ps ss -> (i < length ss)%nat -> (j <= i)%nat ->
  exists g, f_hess C ps i j = Ok g /\ tst (si i) (si j) out g /\ forall x y n d, get g x y n d = CH ps i j x y n d.
Proof. intros H Hi Hj. apply compose_hess_gen; auto; [lia|]. now apply avail_low. Qed.

Lemma gvs_deq ps ps' : has_sts ps ss -> has_sts ps' ss -> Forall2 deq ps ps' -> Forall2 deq (gvs ps) (gvs ps').
Proof.
  intros H H' E. unfold gvs. assert (X : forall g, In g gs -> deq (val (f_call g ps)) (val (f_call g ps'))).
  { intros g Hg. destruct (Forall2_In_l _ _ _ _ Wg Hg) as (o & _ & Wo). now apply (wf_ext _ _ _ Wo). }
  clear - X. induction gs as [|g l IH]; cbn; constructor; [apply X; cbn; auto|apply IH; intros; apply X; cbn; auto].
Qed.

Lemma CG_ext ps ps' i x n d : has_sts ps ss -> has_sts ps' ss -> Forall2 deq ps ps' -> (i < length ss)%nat ->
  CG ps i x n d = CG ps' i x n d.
Proof.
  intros H H' E Hi. pose proof m_len as Lm.
  destruct (wf_ext _ _ _ Wf _ _ (gvs_sts _ H) (gvs_sts _ H') (gvs_deq _ _ H H' E)) as (_ & F2 & _).
  apply Rsum_ext; intros k Hk. apply in_seq in Hk. apply Rsum_ext; intros N _. f_equal.
  - unfold G, dg. destruct (wf_ext _ _ _ (Wgk k ltac:(lia)) _ _ H H' E) as (_ & G2 & _). now apply G2.
  - unfold df. apply F2. lia.
Qed.
Lemma hess_at_ext ss' o g qs qs' : wellformed ss' o g -> has_sts qs ss' -> has_sts qs' ss' -> Forall2 deq qs qs' ->
  forall i j x y n d, (i < length ss')%nat -> (j < length ss')%nat -> hess_at g qs i j x y n d = hess_at g qs' i j x y n d.
Proof.
  intros W H H' E i j x y n d Hi Hj. destruct (wf_ext _ _ _ W _ _ H H' E) as (_ & _ & G3).
  unfold hess_at. destruct (Nat.leb_spec j i); apply G3; auto; lia.
Qed.
Lemma CH_ext ps ps' i j x y n d : has_sts ps ss -> has_sts ps' ss -> Forall2 deq ps ps' -> (i < length ss)%nat -> (j < length ss)%nat ->
  CH ps i j x y n d = CH ps' i j x y n d.
Proof.
  intros H H' E Hi Hj. pose proof m_len as Lm.
  destruct (wf_ext _ _ _ Wf _ _ (gvs_sts _ H) (gvs_sts _ H') (gvs_deq _ _ H H' E)) as (_ & F2 & _).
  assert (GE : forall k i x N, (k < m)%nat -> (i < length ss)%nat -> G ps k i x N = G ps' k i x N).
  { intros k i' x' N Hk Hi'. unfold G, dg. destruct (wf_ext _ _ _ (Wgk k Hk) _ _ H H' E) as (_ & G2 & _). now apply G2. }
  apply Rsum_ext; intros k Hk. apply in_seq in Hk. f_equal.
  - apply Rsum_ext; intros l Hl. apply in_seq in Hl. apply Rsum_ext; intros M _. f_equal; [apply GE; auto; lia|].
    apply Rsum_ext; intros N _. f_equal; [apply GE; auto; lia|].
    apply (hess_at_ext _ _ _ _ _ Wf); auto using gvs_sts, gvs_deq; lia.
  - apply Rsum_ext; intros N _. f_equal.
    + apply (hess_at_ext _ _ _ _ _ (Wgk k ltac:(lia))); auto.
    + unfold df. apply F2; lia.
Qed.

Lemma compose_wf : wellformed ss out C.
Proof.
  constructor.
  - intros ps H. rewrite compose_call_ok by auto. eexists; split; [reflexivity|]. apply (call_st Wf). now apply gvs_sts.
  - intros ps i H Hi. destruct (compose_grad_ok ps i H Hi) as (g & ? & ? & _); eauto.
  - intros ps i j H Hi Hj. destruct (compose_hess_ok ps i j H Hi Hj) as (g & ? & ? & _); eauto.
  - intros ps ps' H H' E. split; [|split].
    + rewrite !compose_call_ok by auto. apply (wf_ext _ _ _ Wf); auto using gvs_sts, gvs_deq.
    + intros i Hi x y n d.
      destruct (compose_grad_ok ps i H Hi) as (g & -> & T & Q), (compose_grad_ok ps' i H' Hi) as (g' & -> & T' & Q'). cbn [val].
      rewrite (tst_ny _ _ _ _ y _ _ T), (tst_ny _ _ _ _ y _ _ T'), Q, Q'. now apply CG_ext.
    + intros i j Hi Hj x y n d.
      destruct (compose_hess_ok ps i j H Hi Hj) as (g & -> & _ & Q), (compose_hess_ok ps' i j H' Hi Hj) as (g' & -> & _ & Q'). cbn [val].
      rewrite Q, Q'. apply CH_ext; auto; lia.
  - cbn. intros E ps i H. rewrite E. apply isnil_zero.
  - cbn. intros E ps i j H. rewrite E. apply isnil_zero.
  - cbn. intros E ps i j H. rewrite E. apply isnil_zero.
Qed.

(** symmetry of the closed form *)
Lemma CH_sym ps i j x y n d : hess_sym os f -> (forall k, (k < m)%nat -> hess_sym ss (gk k)) ->
  has_sts ps ss -> (i < length ss)%nat -> (j < length ss)%nat ->
  CH ps i j x y n d = CH ps j i y x n d.
Proof.
  intros Sf Sg H Hi Hj. pose proof m_len as Lm. unfold CH. rewrite !Rsum_plus. f_equal.
  - rewrite Rsum_swap. apply Rsum_ext; intros l Hl. apply in_seq in Hl. apply Rsum_ext; intros k Hk. apply in_seq in Hk.
    erewrite (Rsum_ext _ (fun M => Rsum (fun N => G ps k i x N * (G ps l j y M * hess_at f (gvs ps) l k M N n d)) (indices (flat (ok k))))).
    2:{ intros M _. rewrite <- Rsum_scal. apply Rsum_ext; intros N _.
        rewrite (hess_at_sym os f (gvs ps) k l N M); auto using gvs_sts; [ring|lia]. }
    rewrite Rsum_swap. apply Rsum_ext; intros N _. rewrite <- Rsum_scal. reflexivity.
  - apply Rsum_ext; intros k Hk. apply in_seq in Hk. apply Rsum_ext; intros N _. f_equal.
    apply (hess_at_sym ss); auto. apply Sg; lia.
Qed.
Lemma compose_hess_at ps i j x y n d : hess_sym os f -> (forall k, (k < m)%nat -> hess_sym ss (gk k)) ->
  has_sts ps ss -> (i < length ss)%nat -> (j < length ss)%nat ->
  hess_at C ps i j x y n d = CH ps i j x y n d.
Proof.
  intros Sf Sg H Hi Hj. unfold hess_at. destruct (Nat.leb_spec j i).
  - destruct (compose_hess_ok ps i j H Hi) as (g & -> & _ & Q); [lia|]. apply Q.
  - destruct (compose_hess_ok ps j i H Hj) as (g & -> & _ & Q); [lia|]. cbn [val]. rewrite Q. now apply CH_sym.
Qed.

Lemma compose_curve Dg c v t :
  (forall k, (k < m)%nat -> grad_correct ss (ok k) Dg (gk k)) ->
  smooth_curve ss c v t -> Dg (c t) ->
  smooth_curve os (fun s => gvs (c s)) (fun k N => pairing ss (fun i x => G (c t) k i x N) v) t.
Proof.
  intros HG Hc HD. split; [intros s; apply gvs_sts, Hc|]. intros k N Hk HN. rewrite m_len in Hk.
  pose proof HN as HN'. unfold flat in HN'. apply in_indices_app in HN' as [HN1 HN2].
  eapply is_derive_ext with (f := fun s => get (val (f_call (gk k) (c s))) [] [] (N1 k N) (N2 k N)).
  { intros s. rewrite nth_gvs by auto. rewrite (parr_get _ (ok k)); auto. apply (call_st (Wgk k Hk)), Hc. }
  exact (HG k Hk c v t Hc HD _ _ HN1 HN2).
Qed.

Lemma compose_correct Df Dg :
  correct os out Df f -> (forall k, (k < m)%nat -> correct ss (ok k) Dg (gk k)) ->
  correct ss out (fun ps => Df (gvs ps) /\ Dg ps) C.
Proof.
  intros [_ Gf Hf Sf] Cg. pose proof m_len as Lm.
  assert (Sg : forall k, (k < m)%nat -> hess_sym ss (gk k)) by (intros k Hk; apply Cg; auto).
  assert (Gg : forall k, (k < m)%nat -> grad_correct ss (ok k) Dg (gk k)) by (intros k Hk; apply Cg; auto).
  constructor.
  - apply compose_wf.
  - intros c v t Hc [HD1 HD2] n d Hn Hd.
    eapply is_derive_ext with (f := fun s => get (val (f_call f (gvs (c s)))) [] [] n d).
    { intros s. rewrite compose_call_ok by apply Hc. reflexivity. }
    eapply is_derive_eq; [apply (Gf _ _ t (compose_curve Dg c v t Gg Hc HD2) HD1 n d Hn Hd)|].
    transitivity (pairing ss (fun i x => CG (c t) i x n d) v).
    + unfold CG. rewrite (pairing_Rsum ss (fun k i x => Rsum _ _)). unfold pairing at 1. rewrite Lm.
      apply Rsum_ext; intros k Hk. rewrite (pairing_Rsum ss (fun N i x => _)). apply Rsum_ext; intros N _.
      rewrite <- pairing_scal. apply pairing_ext; intros. unfold df. ring.
    + apply pairing_ext; intros i x Hi Hx. destruct (compose_grad_ok (c t) i) as (g & -> & _ & Q); [apply Hc|auto|].
      cbn [val]. now rewrite Q.
  - intros c v t Hc [HD1 HD2] i x n d Hi Hx Hn Hd.
    eapply is_derive_ext with (f := fun s => CG (c s) i x n d).
    { intros s. destruct (compose_grad_ok (c s) i) as (g & -> & _ & Q); [apply Hc|auto|]. cbn [val]. now rewrite Q. }
    pose proof (compose_curve Dg c v t Gg Hc HD2) as Hc'.
    eapply is_derive_eq.
    { unfold CG. apply is_derive_Rsum. intros k Hk. apply in_seq in Hk.
      apply is_derive_Rsum. intros N HN. pose proof HN as HN'. unfold flat in HN'. apply in_indices_app in HN' as [HN1 HN2].
      apply D_mult.
      - assert (Hk' : (k < m)%nat) by lia. destruct (Cg k Hk') as [_ _ Hg _].
        exact (Hg c v t Hc HD2 i x _ _ Hi Hx HN1 HN2).
      - refine (Hf _ _ t Hc' HD1 k N n d _ HN Hn Hd). lia. }
    transitivity (pairing ss (fun j y => CH (c t) i j x y n d) v).
    2:{ apply pairing_ext; intros j y Hj Hy. symmetry. apply compose_hess_at; auto. apply Hc. }
    unfold CH. rewrite (pairing_Rsum ss (fun k j y => _ + _)). apply Rsum_ext; intros k Hk.
    rewrite pairing_plus, Rsum_plus, Rplus_comm. f_equal.
    + rewrite (pairing_Rsum ss (fun l j y => Rsum _ _)).
      erewrite (Rsum_ext _ (fun N => Rsum (fun l => Rsum (fun M =>
        G (c t) k i x N * (hess_at f (gvs (c t)) k l N M n d * pairing ss (fun i0 x0 => G (c t) l i0 x0 M) v))
          (indices (flat (ok l)))) (seq 0 m))).
      2:{ intros N _. unfold pairing at 1. rewrite Lm, <- Rsum_scal. apply Rsum_ext; intros l _.
          rewrite <- Rsum_scal. reflexivity. }
      rewrite Rsum_swap. apply Rsum_ext; intros l _. rewrite Rsum_swap, (pairing_Rsum ss (fun M j y => _)).
      apply Rsum_ext; intros M _.
      symmetry; etransitivity; [apply pairing_ext with (G' := fun j y => Rsum (fun N => G (c t) k i x N * hess_at f (gvs (c t)) k l N M n d) (indices (flat (ok k))) * G (c t) l j y M); intros; apply Rmult_comm|].
      rewrite pairing_scal, <- Rsum_scal_r. apply Rsum_ext; intros N _. ring.
    + rewrite (pairing_Rsum ss (fun N j y => _)). apply Rsum_ext; intros N _.
      symmetry; etransitivity; [apply pairing_ext; intros; rewrite Rmult_comm; reflexivity|].
      rewrite pairing_scal. unfold df. rewrite Rmult_comm. reflexivity.
  - intros ps i H Hi x y n d. rewrite get_dtrans.
    destruct (compose_hess_ok ps i i H Hi (le_n i)) as (g & -> & _ & Q). cbn [val]. rewrite !Q. now apply CH_sym.
Qed.

Lemma compose_both : hess_sym os f -> (forall k, (k < m)%nat -> hess_sym ss (gk k)) ->
  (forall k, (k < m)%nat -> hess_both ss (ok k) (gk k)) -> hess_both ss out C.
Proof.
  intros Sf Sg B ps i j H Hij Hj.
  destruct (compose_hess_gen ps i j H) as (g & E & T & Q); [lia|auto| |].
  { intros k Hk. destruct (B k Hk ps i j H Hij Hj) as (h & E & T & Q). exists h; split; auto; split; auto.
    intros. unfold hess_at. destruct (Nat.leb_spec j i); [lia|]. now rewrite Q. }
  exists g. split; auto. split; auto. intros x y n d. rewrite get_dtrans.
  destruct (compose_hess_ok ps j i H Hj) as (g' & -> & _ & Q'); [lia|]. cbn [val]. rewrite Q, Q'. apply CH_sym; auto; lia.
Qed.

(** *** eval *)
Definition E0 : evalT := (dzero, [], []).
Lemma compose_eval_agrees : gs <> [] -> eval_agrees os out f ->
  (forall k, (k < m)%nat -> eval_agrees ss (ok k) (gk k)) -> eval_agrees ss out C.
Proof.
  intros Hne Ef Eg ps H. pose proof m_len as Lm. pose proof (has_sts_length _ _ H) as LP.
  pose (ev := fun g => match f_eval g ps with Ok e => e | Raise _ => E0 end).
  assert (EV : forall k, (k < m)%nat -> f_eval (gk k) ps = Ok (ev (gk k)) /\
     let '(v, gg, hh) := ev (gk k) in
      has_st v (ok k) /\ deq v (val (f_call (gk k) ps)) /\ length gg = length ss /\ length hh = length ss /\
     (forall i, (i < length ss)%nat ->
       tst (si i) [] (ok k) (nth i gg dzero) /\ deq (nth i gg dzero) (dg ps k i) /\
     length (nth i hh []) = S i /\
     forall j, (j <= i)%nat ->
         tst (si i) (si j) (ok k) (nth j (nth i hh []) dzero) /\
     deq (nth j (nth i hh []) dzero) (val (f_hess (gk k) ps i j)))).
  { intros k Hk. destruct (Eg k Hk ps H) as (v & gg & hh & E & R). unfold ev. rewrite E. split; auto. }
  assert (EA : eval_all gs ps = Ok (map ev gs)).
  { unfold eval_all. destruct gs as [|g0 l0] eqn:Eg0; [congruence|]. rewrite <- Eg0 in *.
    apply rmapM_all_ok. intros g Hg. apply In_nth with (d := fnull) in Hg as (k & Hk & <-). now apply EV. }
  pose (V := fun k => fst (fst (ev (gk k)))). pose (GG := fun k => snd (fst (ev (gk k)))). pose (HH := fun k => snd (ev (gk k))).
  assert (EV' : forall k, (k < m)%nat -> has_st (V k) (ok k) /\ deq (V k) (val (f_call (gk k) ps)) /\
     length (GG k) = length ss /\ length (HH k) = length ss /\
     (forall i, (i < length ss)%nat ->
       tst (si i) [] (ok k) (nth i (GG k) dzero) /\ deq (nth i (GG k) dzero) (dg ps k i) /\
     length (nth i (HH k) []) = S i /\
     forall j, (j <= i)%nat ->
         tst (si i) (si j) (ok k) (nth j (nth i (HH k) []) dzero) /\
     deq (nth j (nth i (HH k) []) dzero) (val (f_hess (gk k) ps i j)))).
  { intros k Hk. unfold V, GG, HH. pose proof (proj2 (EV k Hk)) as R. destruct (ev (gk k)) as [[v gg] hh]. exact R. }
  assert (MS : forall {B} (F : evalT -> B), map F (map ev gs) = map (fun k => F (ev (gk k))) (seq 0 m)).
  { intros B F. rewrite map_map. transitivity (map (fun g => F (ev g)) (map (fun k => gk k) (seq 0 m))).
    - f_equal. clear. induction gs as [|g l IH]; auto. cbn. f_equal. rewrite <- seq_shift, map_map. exact IH.
    - now rewrite map_map. }
  set (gv := map V (seq 0 m)).
  assert (GVst : has_sts gv os).
  { unfold gv. rewrite <- Lm. apply Forall2_map_seq with (d := ([],[])). intros k Hk. apply EV'; lia. }
  assert (GVd : Forall2 deq gv (gvs ps)).
  { unfold gv. replace m with (length (gvs ps)) by (unfold gvs; apply map_length).
    apply Forall2_map_seq with (d := dzero). intros k Hk. unfold gvs in Hk; rewrite map_length in Hk.
    rewrite nth_gvs by auto. apply EV'; auto. }
  pose proof (gvs_sts _ H) as GS.
  destruct (wf_ext _ _ _ Wf _ _ GVst GS GVd) as (F1 & F2 & F3).
  destruct (Ef gv GVst) as (v & fg & fh & EE & Sv & Dv & Lg & Lh & RF).
  assert (FG : forall k, (k < m)%nat -> rnth fg k = Ok (nth k fg dzero) /\ tst (flat (ok k)) [] out (nth k fg dzero) /\
     deq (nth k fg dzero) (df ps k)).
  { intros k Hk. split; [apply rnth_ok; lia|]. destruct (RF k ltac:(lia)) as (R1 & R2 & _). split; auto.
    eapply deq_trans; [exact R2|]. apply F2; lia. }
  pose (fhkl := fun k l => if Nat.ltb k l then dtrans (nth k (nth l fh []) dzero) else nth l (nth k fh []) dzero).
  assert (FH : forall k l, (k < m)%nat -> (l < m)%nat ->
     (if Nat.ltb k l then let! row := rnth fh l in let! h' := rnth row k in Ok (dtrans h')
      else let! row := rnth fh k in rnth row l) = Ok (fhkl k l) /\
     tst (flat (ok k)) (flat (ok l)) out (fhkl k l) /\
     forall N M n d, get (fhkl k l) N M n d = hess_at f (gvs ps) k l N M n d).
  { intros k l Hk Hl. unfold fhkl, hess_at. destruct (Nat.ltb_spec k l) as [L|L].
    - destruct (RF l ltac:(lia)) as (_ & _ & R3 & R4). destruct (R4 k ltac:(lia)) as (R5 & R6).
      rewrite (rnth_ok _ _ []) by lia. cbn [rbind]. rewrite (rnth_ok _ _ dzero) by lia. split; auto.
      split; [now apply tst_dtrans|]. intros. destruct (Nat.leb_spec l k); [lia|]. rewrite get_dtrans, R6. apply F3; lia.
    - destruct (RF k ltac:(lia)) as (_ & _ & R3 & R4). destruct (R4 l ltac:(lia)) as (R5 & R6).
      rewrite (rnth_ok _ _ []) by lia. cbn [rbind]. rewrite (rnth_ok _ _ dzero) by lia. split; auto.
      split; auto. intros. destruct (Nat.leb_spec l k); [|lia]. rewrite R6. apply F3; lia. }
  set (ggs := map (fun k => map ddrop (GG k)) (seq 0 m)). set (ghs := map HH (seq 0 m)).
  assert (Lgg : length ggs = m) by (unfold ggs; now rewrite map_length, seq_length).
  assert (Lgh : length ghs = m) by (unfold ghs; now rewrite map_length, seq_length).
  assert (RN : forall k i, (k < m)%nat -> (i < length ss)%nat -> rnth (map ddrop (GG k)) i = Ok (ddrop (nth i (GG k) dzero))).
  { intros k i Hk Hi. destruct (EV' k Hk) as (_ & _ & L1 & _). unfold rnth. rewrite nth_error_map.
    rewrite (nth_error_nth' (GG k) dzero) by lia. reflexivity. }
  assert (RH : forall k i j, (k < m)%nat -> (i < length ss)%nat -> (j <= i)%nat ->
     rnth (HH k) i = Ok (nth i (HH k) []) /\ rnth (nth i (HH k) []) j = Ok (nth j (nth i (HH k) []) dzero)).
  { intros k i j Hk Hi Hj. destruct (EV' k Hk) as (_ & _ & _ & L2 & R). destruct (R i Hi) as (_ & _ & L3 & _).
    split; apply rnth_ok; lia. }
  assert (GN : forall k i x N, (k < m)%nat -> (i < length ss)%nat -> get (nth i (GG k) dzero) x [] (N1 k N) (N2 k N) = G ps k i x N).
  { intros k i x N Hk Hi. destruct (EV' k Hk) as (_ & _ & _ & _ & R). destruct (R i Hi) as (_ & R2 & _). unfold G. now rewrite R2. }
  assert (TG : forall k i, (k < m)%nat -> (i < length ss)%nat -> tst (si i) [] (ok k) (nth i (GG k) dzero)).
  { intros k i Hk Hi. destruct (EV' k Hk) as (_ & _ & _ & _ & R). apply (R i Hi). }
  assert (TH : forall k i j, (k < m)%nat -> (i < length ss)%nat -> (j <= i)%nat ->
      tst (si i) (si j) (ok k) (nth j (nth i (HH k) []) dzero) /\
      forall x y n d, get (nth j (nth i (HH k) []) dzero) x y n d = hess_at (gk k) ps i j x y n d).
  { intros k i j Hk Hi Hj. destruct (EV' k Hk) as (_ & _ & _ & _ & R). destruct (R i Hi) as (_ & _ & _ & R4).
    destruct (R4 j Hj) as (R5 & R6). split; auto. intros. unfold hess_at. destruct (Nat.leb_spec j i); [|lia]. apply R6. }
  (* gradients *)
  pose (Gi := fun i => dsum (map (fun k => ddot_left (nth k fg dzero) (ddrop (nth i (GG k) dzero))) (seq 0 m))).
  assert (EGr : rmapM (compose_eval_grad fg ggs) (seq 0 (length ps)) = Ok (map Gi (seq 0 (length ps)))).
  { apply rmapM_all_ok. intros i Hi. apply in_seq in Hi. rewrite LP in Hi. unfold compose_eval_grad.
    rewrite rmapM_enum with (T := fun k => ddot_left (nth k fg dzero) (ddrop (nth i (GG k) dzero))).
    - rewrite Lgg. reflexivity.
    - intros k a Hk. apply nth_error_map_seq in Hk as [Hk ->]. destruct (FG k Hk) as (-> & _). cbn [rbind].
      rewrite RN by (auto; lia). reflexivity. }
  assert (TGi : forall i, (i < length ss)%nat -> tst (si i) [] out (Gi i) /\ forall x n d, get (Gi i) x [] n d = CG ps i x n d).
  { intros i Hi. split.
    - apply tst_dsum, Forall_map, Forall_forall. intros k Hk. apply in_seq in Hk.
      eapply tst_dot_left; [apply FG|apply TG]; auto; lia.
    - intros x n d. unfold Gi, CG. rewrite get_dsum, Rsum_map. apply Rsum_ext; intros k Hk. apply in_seq in Hk.
      rewrite (dot_left_norm [] (ok k) out _ (si i) []); [|apply FG; lia|apply TG; auto; lia].
      apply Rsum_ext; intros N _. f_equal; [apply GN; auto; lia|]. apply FG; lia. }
  (* Hessians *)
  pose (nh := negb (f_nullg f) && f_nullh f).
  pose (Hij := fun i j => if nh
     then dsum (map (fun k => ddot_right (nth k fg dzero) (ddrop (nth j (nth i (HH k) []) dzero))) (seq 0 m))
     else dsum (concat (map (fun k => ddot_right (nth k fg dzero) (ddrop (nth j (nth i (HH k) []) dzero)) ::
       map (fun l => quad_term (fhkl k l) (ddrop (nth i (GG k) dzero)) (ddrop (nth j (GG l) dzero))) (seq 0 m)) (seq 0 m)))).
  assert (EH : rmapM (fun i => rmapM (fun j =>
        if nh then compose_eval_hess_null fg ghs i j
        else compose_eval_hess fg fh ggs ghs i j) (seq 0 (S i))) (seq 0 (length ps)) =
      Ok (map (fun i => map (Hij i) (seq 0 (S i))) (seq 0 (length ps)))).
  { apply rmapM_all_ok. intros i Hi. apply in_seq in Hi. rewrite LP in Hi. apply rmapM_all_ok. intros j Hj. apply in_seq in Hj.
    unfold Hij. destruct nh.
    - unfold compose_eval_hess_null.
      rewrite rmapM_enum with (T := fun k => ddot_right (nth k fg dzero) (ddrop (nth j (nth i (HH k) []) dzero))).
      + rewrite Lgh. reflexivity.
      + intros k a Hk. apply nth_error_map_seq in Hk as [Hk ->]. destruct (FG k Hk) as (-> & _). cbn [rbind].
        destruct (RH k i j) as (-> & E2); auto; try lia. cbn [rbind]. rewrite E2. reflexivity.
    - unfold compose_eval_hess, ghs. unfold ggs at 2. rewrite combine_map_same.
      rewrite rmapM_enum with (T := fun k => ddot_right (nth k fg dzero) (ddrop (nth j (nth i (HH k) []) dzero)) ::
       map (fun l => quad_term (fhkl k l) (ddrop (nth i (GG k) dzero)) (ddrop (nth j (GG l) dzero))) (seq 0 m)).
      + rewrite map_length, seq_length. reflexivity.
      + intros k [dk hk] Hk. apply nth_error_map_seq in Hk as [Hk Eq]. injection Eq as -> ->.
        destruct (FG k Hk) as (-> & _). cbn [rbind]. destruct (RH k i j) as (-> & E2); auto; try lia. cbn [rbind]. rewrite E2. cbn [rbind].
        rewrite rmapM_enum with (T := fun l => quad_term (fhkl k l) (ddrop (nth i (GG k) dzero)) (ddrop (nth j (GG l) dzero))).
        * rewrite Lgg. reflexivity.
        * intros l a Hl. apply nth_error_map_seq in Hl as [Hl ->]. destruct (FH k l Hk Hl) as (-> & _). cbn [rbind].
          rewrite !RN by (auto; lia). reflexivity. }
  assert (THij : forall i j, (i < length ss)%nat -> (j <= i)%nat -> tst (si i) (si j) out (Hij i j) /\
     forall x y n d, get (Hij i j) x y n d = CH ps i j x y n d).
  { intros i j Hi Hj. unfold Hij. destruct nh eqn:Nh.
    - apply andb_true_iff in Nh as [_ Nh]. split.
      + apply tst_dsum, Forall_map, Forall_forall. intros k Hk. apply in_seq in Hk.
        eapply tst_dot_right; [apply FG|apply TH]; auto; lia.
      + intros x y n d. rewrite get_dsum, Rsum_map. unfold CH. apply Rsum_ext; intros k Hk. apply in_seq in Hk.
        rewrite (dot_right_norm (ok k) out _ (si i) (si j)); [|apply FG; lia|apply TH; auto; lia].
        rewrite (Rsum_zero (fun l => Rsum _ _)).
        2:{ intros l _. apply Rsum_zero; intros M _. rewrite Rsum_zero; [ring|]. intros N _.
          unfold hess_at. destruct (l <=? k)%nat; rewrite (wf_nullh _ _ _ Wf Nh _ _ _ GS); ring. }
        rewrite Rplus_0_l. apply Rsum_ext; intros N _. f_equal; [apply TH; auto; lia|apply FG; lia].
    - split.
      + apply tst_dsum. apply Forall_concat, Forall_map, Forall_forall. intros k Hk. apply in_seq in Hk.
        constructor; [eapply tst_dot_right; [apply FG|apply TH]; auto; lia|].
        apply Forall_map, Forall_forall. intros l Hl. apply in_seq in Hl.
        apply (tst_quad (ok k) (ok l)); [apply FH; lia|apply TG; auto; lia|apply TG; auto; lia].
      + intros x y n d. rewrite get_dsum, <- flat_map_concat_map.
        rewrite (Rsum_flat_map _ (fun k => _) (seq 0 m)). unfold CH. apply Rsum_ext; intros k Hk. apply in_seq in Hk.
        rewrite Rsum_cons, Rsum_map, Rplus_comm. f_equal.
        * apply Rsum_ext; intros l Hl. apply in_seq in Hl.
          rewrite (quad_norm (ok k) (ok l) out _ (si i) _ (si j)); [|apply FH; lia|apply TG; auto; lia|apply TG; auto; lia].
          apply Rsum_ext; intros M _. f_equal; [apply GN; auto; lia|]. apply Rsum_ext; intros N _.
          f_equal; [apply GN; auto; lia|apply FH; lia].
        * rewrite (dot_right_norm (ok k) out _ (si i) (si j)); [|apply FG; lia|apply TH; auto; lia].
          apply Rsum_ext; intros N _. f_equal; [apply TH; auto; lia|apply FG; lia]. }
  exists v, (map Gi (seq 0 (length ps))), (map (fun i => map (Hij i) (seq 0 (S i))) (seq 0 (length ps))).
  split.
  { cbn [f_eval s_compose]. unfold compose_eval. rewrite EA. cbn [rbind].
    rewrite !MS. fold gv. change (map (fun k => map ddrop (snd (fst (ev (gk k))))) (seq 0 m)) with ggs.
    change (map (fun k => snd (ev (gk k))) (seq 0 m)) with ghs.
    change (map (fun k => fst (fst (ev (gk k)))) (seq 0 m)) with gv.
    rewrite EE. cbn [rbind]. rewrite EGr. cbn [rbind]. fold nh. rewrite EH. reflexivity. }
  split; auto. split. { rewrite compose_call_ok by auto. eapply deq_trans; [exact Dv|exact F1]. }
  rewrite !map_length, seq_length, LP. split; auto. split; auto.
  intros i Hi. rewrite !nth_map_seq by auto. destruct (TGi i Hi) as (T1 & Q1). split; auto. split.
  { intros x y n d. destruct (compose_grad_ok ps i H Hi) as (g & -> & T & Q). cbn [val].
    now rewrite (tst_ny _ _ _ _ y _ _ T), (tst_ny _ _ _ _ y _ _ T1), Q, Q1. }
  rewrite map_length, seq_length. split; auto. intros j Hj. rewrite nth_map_seq by lia.
  destruct (THij i j Hi Hj) as (T2 & Q2). split; auto.
  intros x y n d. destruct (compose_hess_ok ps i j H Hi Hj) as (g & -> & T & Q). cbn [val]. now rewrite Q, Q2.
Qed.
End Compose.
