(** The primitive functions have right derivatives. *)
From Verif Require Import Prelude DenseModel FuncModel AnalyticSpec FuncSpec DenseProofs FuncLemmas FuncAffine FuncSum FuncWrapP FuncCompose.
From Coquelicot Require Import Coquelicot.
From Coq Require Import Reals Lra.
Import List ListNotations.
Open Scope R_scope.

Lemma sts_1 ps s : has_sts ps (s :: nil) -> exists p, ps = (p :: nil) /\ has_st p s.
Proof. intros H. inversion H as [|p ? ? ? Hp Hr]; subst. inversion Hr; subst. eauto. Qed.
Lemma eqb_idx_spec a b : reflect (a = b) (eqb_idx a b).
Proof. unfold eqb_idx. destruct (list_eq_dec Nat.eq_dec a b); constructor; auto. Qed.
Lemma Rsum_delta (l : list idx) k (T : idx -> R) : NoDup l -> In k l ->
  Rsum (fun x => if eqb_idx x k then T x else 0) l = T k.
Proof.
  induction l as [|a l IH]; intros Hn Hi; [destruct Hi|]. inversion Hn as [|? ? Ha Hn']; subst. rewrite Rsum_cons.
  destruct (eqb_idx_spec a k) as [->|E].
  - rewrite (Rsum_zero _ l); [ring|]. intros x Hx. destruct (eqb_idx_spec x k) as [->|]; [contradiction|reflexivity].
  - destruct Hi as [->|Hi]; [contradiction|]. rewrite IH; auto. ring.
Qed.
Lemma pairing_1 s G v : pairing (s :: nil) G v = Rsum (fun x => G 0%nat x * v 0%nat x) (indices (flat s)).
Proof. unfold pairing. cbn [length seq]. rewrite Rsum_cons, Rsum_nil, Rplus_0_r. reflexivity. Qed.

(** the default eval *)
Lemma prim_eval ss out call grad hess ng nh :
  wellformed ss out (prim call grad hess ng nh) -> eval_agrees ss out (prim call grad hess ng nh).
Proof.
  intros W ps H. pose proof (has_sts_length _ _ H) as LP. set (f := prim call grad hess ng nh) in *.
  exists (val (f_call f ps)), (map (fun i => val (f_grad f ps i)) (seq 0 (length ps))),
    (map (fun i => map (fun j => val (f_hess f ps i j)) (seq 0 (S i))) (seq 0 (length ps))).
  split.
  { cbn [f_eval f prim]. unfold eval_default. change (call ps) with (f_call f ps). rewrite (call_ok W) by auto. cbn [rbind].
    change (grad ps) with (f_grad f ps). rewrite rmapM_all_ok with (g := fun i => val (f_grad f ps i)).
    2:{ intros i Hi. apply in_seq in Hi. apply (grad_ok W); auto. lia. }
    cbn [rbind]. rewrite rmapM_all_ok with (g := fun i => map (fun j => val (f_hess f ps i j)) (seq 0 (S i))); [reflexivity|].
    intros i Hi. apply in_seq in Hi. apply rmapM_all_ok. intros j Hj. apply in_seq in Hj.
    apply (hess_ok W); auto; lia. }
  split; [now apply (call_st W)|]. split; [apply deq_refl|]. rewrite !map_length, seq_length. split; auto. split; auto.
  intros i Hi. rewrite LP, !nth_map_seq by auto. split; [now apply (grad_tst W)|]. split; [apply deq_refl|].
  rewrite map_length, seq_length. split; auto. intros j Hj. rewrite nth_map_seq by lia.
  split; [now apply (hess_tst W)|apply deq_refl].
Qed.

(** a rank-preserving shape that a diagonal tensor has *)
Definition kd_ok (keepdim : bool) (s : pst) : Prop := keepdim = true \/ snd s = [].
Lemma kd_shape kd p s : kd_ok kd s -> has_st p s ->
  firstn (if kd then length (ns p) else length (pshape p)) (pshape p) = fst s /\
  skipn (if kd then length (ns p) else length (pshape p)) (pshape p) = snd s.
Proof.
  intros K (E1 & E2 & E3 & E4). unfold pshape. rewrite E3, E4. destruct kd.
  - rewrite firstn_app, Nat.sub_diag, firstn_all, firstn_O, app_nil_r.
    rewrite skipn_app, Nat.sub_diag, skipn_all, skipn_O. auto.
  - destruct K as [K|K]; [discriminate|]. rewrite K, app_nil_r, firstn_all, skipn_all. auto.
Qed.

Ltac red1 := cbn [nth f_call f_grad f_hess s_entrywise s_rows prim par rnth nth_error rbind val].

Section Entry.
Context (kd nullh : bool) (F dF ddF : R -> R) (s : pst).
Notation f := (s_entrywise kd nullh F dF ddF).
Hypothesis K : kd_ok kd s.
Hypothesis Nh : nullh = true -> forall v, ddF v = 0.

Lemma get_ufun G p x y n d : has_st p s -> get (ufun G p) x y n d = G (get p [] [] n d).
Proof. intros (E1 & E2 & E3 & E4). unfold get. cbn. rewrite E1, E2. reflexivity. Qed.
Lemma get_diag_grad p G x y n d : has_st p s ->
  get (diag_grad kd p (fun k => G (parr p k))) x y n d =
  if eqb_idx (clamp (flat s) x) (clamp (fst s) n ++ clamp (snd s) d) then G (parr p (clamp (fst s) n ++ clamp (snd s) d)) else 0.
Proof.
  intros Hp. destruct (kd_shape kd p s K Hp) as [E1 E2]. unfold get at 1. cbn [diag_grad xs ys ns ds at_].
  rewrite E1, E2. replace (pshape p) with (flat s); [reflexivity|].
  destruct Hp as (_ & _ & E3 & E4). unfold pshape, flat. now rewrite E3, E4.
Qed.
Lemma get_diag_hess p G x y n d : has_st p s ->
  get (diag_hess kd p (fun k => G (parr p k))) x y n d =
  if eqb_idx (clamp (flat s) x) (clamp (fst s) n ++ clamp (snd s) d)
  then if eqb_idx (clamp (flat s) y) (clamp (fst s) n ++ clamp (snd s) d)
       then G (parr p (clamp (fst s) n ++ clamp (snd s) d)) else 0 else 0.
Proof.
  intros Hp. destruct (kd_shape kd p s K Hp) as [E1 E2]. unfold get at 1. cbn [diag_hess xs ys ns ds at_].
  rewrite E1, E2. replace (pshape p) with (flat s); [reflexivity|].
  destruct Hp as (_ & _ & E3 & E4). unfold pshape, flat. now rewrite E3, E4.
Qed.
Lemma tst_diag_grad p V : has_st p s -> tst (flat s) [] s (diag_grad kd p V).
Proof.
  intros Hp. destruct (kd_shape kd p s K Hp) as [E1 E2].
  assert (E : pshape p = flat s) by (destruct Hp as (_ & _ & E3 & E4); unfold pshape, flat; now rewrite E3, E4).
  repeat split; cbn [diag_grad xs ys ns ds]; rewrite ?E1, ?E2; auto using ax_sub_refl.
Qed.
Lemma tst_diag_hess p V : has_st p s -> tst (flat s) (flat s) s (diag_hess kd p V).
Proof.
  intros Hp. destruct (kd_shape kd p s K Hp) as [E1 E2].
  assert (E : pshape p = flat s) by (destruct Hp as (_ & _ & E3 & E4); unfold pshape, flat; now rewrite E3, E4).
  repeat split; cbn [diag_hess xs ys ns ds]; rewrite ?E1, ?E2; auto using ax_sub_refl.
Qed.
Lemma parr_deq p p' k : has_st p s -> has_st p' s -> deq p p' -> parr p k = parr p' k.
Proof. intros (_ & _ & E & _) (_ & _ & E' & _) D. unfold parr. rewrite E, E'. apply D. Qed.

Lemma entry_wf : wellformed (s :: nil) s f.
Proof.
  constructor.
  - intros ps H. apply sts_1 in H as (p & -> & Hp). cbn. eexists; split; [reflexivity|].
    destruct Hp as (? & ? & ? & ?). repeat split; auto.
  - intros ps i H Hi. apply sts_1 in H as (p & -> & Hp). cbn in Hi. replace i with 0%nat by lia. cbn.
    eexists; split; [reflexivity|]. now apply tst_diag_grad.
  - intros ps i j H Hi Hj. apply sts_1 in H as (p & -> & Hp). cbn in Hi. replace i with 0%nat by lia. replace j with 0%nat by lia. cbn.
    destruct nullh; eexists; (split; [reflexivity|]); [apply tst_zero|now apply tst_diag_hess].
  - intros ps ps' H H' E. apply sts_1 in H as (p & -> & Hp). apply sts_1 in H' as (p' & -> & Hp').
    apply Forall2_cons_iff in E as [E _]. split; [|split].
    + intros x y n d. red1. rewrite !get_ufun by auto. now rewrite E.
    + intros i Hi x y n d. red1. rewrite !(get_diag_grad _ dF) by auto. now rewrite (parr_deq p p').
    + intros i j Hi Hj x y n d. red1. destruct nullh; [reflexivity|]. red1.
      rewrite !(get_diag_hess _ ddF) by auto. now rewrite (parr_deq p p').
  - cbn; discriminate.
  - cbn. intros -> ps i j H. apply isnil_zero.
  - cbn; discriminate.
Qed.

Lemma entry_correct (P : R -> Prop) :
  (forall v, P v -> is_derive F v (dF v)) -> (forall v, P v -> is_derive dF v (ddF v)) ->
  correct (s :: nil) s (fun ps => forall x, In x (indices (flat s)) -> P (parr (nth 0 ps dzero) x)) f.
Proof.
  intros HF HdF. constructor.
  - apply entry_wf.
  - intros c v t Hc HD n d Hn Hd. pose proof Hc as [St Dc].
    assert (In' : In (n ++ d) (indices (flat s))) by (unfold flat; now apply in_indices_app2).
    assert (Fi : firstn (length (fst s)) (n ++ d) = n /\ skipn (length (fst s)) (n ++ d) = d).
    { apply indices_length in Hn. rewrite <- Hn. rewrite firstn_app, Nat.sub_diag, firstn_all, firstn_O, app_nil_r.
      rewrite skipn_app, Nat.sub_diag, skipn_all, skipn_O. auto. }
    eapply is_derive_ext with (f := fun z => F (parr (nth 0 (c z) dzero) (n ++ d))).
    { intros z. destruct (sts_1 _ _ (St z)) as (p & Ep & Hp). rewrite Ep. red1. rewrite get_ufun by auto.
      unfold parr. destruct Hp as (_ & _ & -> & _). now destruct Fi as [-> ->]. }
    eapply is_derive_eq; [apply D_comp; [apply HF, HD, In'|apply (Dc 0%nat (n ++ d)); cbn; auto]|].
    rewrite pairing_1. destruct (sts_1 _ _ (St t)) as (p & Ep & Hp). rewrite Ep. cbn [nth f_grad f_call s_entrywise prim par rnth nth_error rbind val].
    rewrite <- (Rsum_delta (indices (flat s)) (n ++ d) (fun x => dF (parr p (n ++ d)) * v 0%nat x)) by (auto using NoDup_indices).
    apply Rsum_ext; intros x Hx. rewrite (get_diag_grad _ dF) by auto. rewrite !clamp_in by auto.
    destruct (eqb_idx x (n ++ d)); ring.
  - intros c v t Hc HD i x n d Hi Hx Hn Hd. pose proof Hc as [St Dc]. cbn in Hi. assert (i = 0%nat) by lia. subst i. cbn [nth] in Hx.
    assert (In' : In (n ++ d) (indices (flat s))) by (unfold flat; now apply in_indices_app2).
    eapply is_derive_ext with (f := fun z => if eqb_idx x (n ++ d) then dF (parr (nth 0 (c z) dzero) (n ++ d)) else 0).
    { intros z. destruct (sts_1 _ _ (St z)) as (p & Ep & Hp). rewrite Ep. cbn [nth f_grad f_call s_entrywise prim par rnth nth_error rbind val].
      rewrite (get_diag_grad _ dF) by auto. now rewrite !clamp_in by auto. }
    rewrite pairing_1. destruct (sts_1 _ _ (St t)) as (p & Ep & Hp).
    assert (HE : forall y, In y (indices (flat s)) -> hess_at f (c t) 0 0 x y n d =
       if eqb_idx x (n ++ d) then if eqb_idx y (n ++ d) then ddF (parr p (n ++ d)) else 0 else 0).
    { intros y Hy. unfold hess_at. cbn [Nat.leb]. rewrite Ep. red1. destruct nullh eqn:N.
      - cbn [val]. rewrite Nh by auto. destruct (eqb_idx x (n ++ d)), (eqb_idx y (n ++ d)); reflexivity.
      - red1. rewrite (get_diag_hess _ ddF) by auto. now rewrite !clamp_in by auto. }
    destruct (eqb_idx x (n ++ d)) eqn:Ex.
    + eapply is_derive_eq; [apply D_comp; [apply HdF, HD, In'|apply (Dc 0%nat (n ++ d)); cbn; auto]|].
      rewrite Ep in HE |- *. cbn [nth].
      rewrite <- (Rsum_delta (indices (flat s)) (n ++ d) (fun x => ddF (parr p (n ++ d)) * v 0%nat x)) by (auto using NoDup_indices).
      apply Rsum_ext; intros y Hy. rewrite HE by auto. destruct (eqb_idx y (n ++ d)); ring.
    + eapply is_derive_eq; [apply D_const|]. symmetry. apply Rsum_zero. intros y Hy. rewrite HE by auto. ring.
  - intros ps i H Hi x y n d. apply sts_1 in H as (p & -> & Hp). cbn in Hi. replace i with 0%nat by lia. rewrite get_dtrans. red1.
    destruct nullh; [reflexivity|]. red1. rewrite !(get_diag_hess _ ddF) by auto.
    destruct (eqb_idx (clamp (flat s) x) _), (eqb_idx (clamp (flat s) y) _); reflexivity.
Qed.
End Entry.

Section Rows.
Context (size : nat) (F dF ddF : R -> nat -> R) (s : pst).
Notation f := (s_rows size F dF ddF).
Notation out := (flat s, (size :: nil)).

Lemma pshape_st p : has_st p s -> pshape p = flat s.
Proof. intros (_ & _ & E3 & E4). unfold pshape, flat. now rewrite E3, E4. Qed.
Lemma get_row p G x y n d : has_st p s ->
  get (row_tensor p size G) x y n d = G (parr p (clamp (flat s) n)) (nth 0 (clamp (size :: nil) d) 0%nat).
Proof. intros Hp. unfold get at 1. cbn [row_tensor xs ys ns ds at_]. now rewrite (pshape_st p Hp). Qed.
Lemma get_row_grad p G x y n d : has_st p s ->
  get (row_grad p size G) x y n d = if eqb_idx (clamp (flat s) x) (clamp (flat s) n)
    then G (parr p (clamp (flat s) n)) (nth 0 (clamp (size :: nil) d) 0%nat) else 0.
Proof. intros Hp. unfold get at 1. cbn [row_grad xs ys ns ds at_]. now rewrite (pshape_st p Hp). Qed.
Lemma get_row_hess p G x y n d : has_st p s ->
  get (row_hess p size G) x y n d = if eqb_idx (clamp (flat s) x) (clamp (flat s) n)
    then if eqb_idx (clamp (flat s) y) (clamp (flat s) n)
    then G (parr p (clamp (flat s) n)) (nth 0 (clamp (size :: nil) d) 0%nat) else 0 else 0.
Proof. intros Hp. unfold get at 1. cbn [row_hess xs ys ns ds at_]. now rewrite (pshape_st p Hp). Qed.

Lemma rows_wf : wellformed (s :: nil) out f.
Proof.
  constructor.
  - intros ps H. apply sts_1 in H as (p & -> & Hp). cbn. eexists; split; [reflexivity|].
    repeat split; cbn; auto. now apply pshape_st.
  - intros ps i H Hi. apply sts_1 in H as (p & -> & Hp). cbn in Hi. replace i with 0%nat by lia. cbn.
    eexists; split; [reflexivity|]. pose proof (pshape_st p Hp) as E.
    repeat split; cbn [row_grad xs ys ns ds fst snd]; rewrite ?E; auto using ax_sub_refl.
  - intros ps i j H Hi Hj. apply sts_1 in H as (p & -> & Hp). cbn in Hi. replace i with 0%nat by lia. replace j with 0%nat by lia. cbn.
    eexists; split; [reflexivity|]. pose proof (pshape_st p Hp) as E.
    repeat split; cbn [row_hess xs ys ns ds fst snd]; rewrite ?E; auto using ax_sub_refl.
  - intros ps ps' H H' E. apply sts_1 in H as (p & -> & Hp). apply sts_1 in H' as (p' & -> & Hp').
    apply Forall2_cons_iff in E as [E _]. split; [|split].
    + intros x y n d. cbn [f_call s_rows prim par rnth nth_error rbind val]. rewrite !get_row by auto. now rewrite (parr_deq s p p').
    + intros i Hi x y n d. cbn [f_grad s_rows prim par rnth nth_error rbind val]. rewrite !get_row_grad by auto. now rewrite (parr_deq s p p').
    + intros i j Hi Hj x y n d. cbn [f_hess s_rows prim par rnth nth_error rbind val]. rewrite !get_row_hess by auto. now rewrite (parr_deq s p p').
  - cbn; discriminate.
  - cbn; discriminate.
  - cbn; discriminate.
Qed.

Lemma rows_correct (P : R -> Prop) :
  (forall v k, P v -> is_derive (fun a => F a k) v (dF v k)) -> (forall v k, P v -> is_derive (fun a => dF a k) v (ddF v k)) ->
  correct (s :: nil) out (fun ps => forall x, In x (indices (flat s)) -> P (parr (nth 0 ps dzero) x)) f.
Proof.
  intros HF HdF. constructor.
  - apply rows_wf.
  - intros c v t Hc HD n d Hn Hd. pose proof Hc as [St Dc]. cbn [fst snd] in *.
    eapply is_derive_ext with (f := fun z => F (parr (nth 0 (c z) dzero) n) (nth 0 d 0%nat)).
    { intros z. destruct (sts_1 _ _ (St z)) as (p & Ep & Hp). rewrite Ep. cbn [nth f_call s_rows prim par rnth nth_error rbind val].
      rewrite get_row by auto. now rewrite !clamp_in by auto. }
    eapply is_derive_eq; [apply (D_comp (fun a => F a (nth 0 d 0%nat))); [apply HF, HD, Hn|apply (Dc 0%nat n); cbn; auto]|].
    rewrite pairing_1. destruct (sts_1 _ _ (St t)) as (p & Ep & Hp). rewrite Ep. cbn [nth f_grad s_rows prim par rnth nth_error rbind val].
    rewrite <- (Rsum_delta (indices (flat s)) n (fun x => dF (parr p n) (nth 0 d 0%nat) * v 0%nat x)) by (auto using NoDup_indices).
    apply Rsum_ext; intros x Hx. rewrite get_row_grad by auto. rewrite !clamp_in by auto.
    destruct (eqb_idx x n); ring.
  - intros c v t Hc HD i x n d Hi Hx Hn Hd. pose proof Hc as [St Dc]. cbn in Hi. assert (i = 0%nat) by lia. subst i. cbn [nth fst snd] in *.
    eapply is_derive_ext with (f := fun z => if eqb_idx x n then dF (parr (nth 0 (c z) dzero) n) (nth 0 d 0%nat) else 0).
    { intros z. destruct (sts_1 _ _ (St z)) as (p & Ep & Hp). rewrite Ep. cbn [nth f_grad s_rows prim par rnth nth_error rbind val].
      rewrite get_row_grad by auto. now rewrite !clamp_in by auto. }
    rewrite pairing_1. destruct (sts_1 _ _ (St t)) as (p & Ep & Hp).
    assert (HE : forall y, In y (indices (flat s)) -> hess_at f (c t) 0 0 x y n d =
       if eqb_idx x n then if eqb_idx y n then ddF (parr p n) (nth 0 d 0%nat) else 0 else 0).
    { intros y Hy. unfold hess_at. cbn [Nat.leb]. rewrite Ep. cbn [f_hess s_rows prim par rnth nth_error rbind val].
      rewrite get_row_hess by auto. now rewrite !clamp_in by auto. }
    destruct (eqb_idx x n) eqn:Ex.
    + eapply is_derive_eq; [apply (D_comp (fun a => dF a (nth 0 d 0%nat))); [apply HdF, HD, Hn|apply (Dc 0%nat n); cbn; auto]|].
      rewrite Ep in HE |- *. cbn [nth].
      rewrite <- (Rsum_delta (indices (flat s)) n (fun x => ddF (parr p n) (nth 0 d 0%nat) * v 0%nat x)) by (auto using NoDup_indices).
      apply Rsum_ext; intros y Hy. rewrite HE by auto. destruct (eqb_idx y n); ring.
    + eapply is_derive_eq; [apply D_const|]. symmetry. apply Rsum_zero. intros y Hy. rewrite HE by auto. ring.
  - intros ps i H Hi x y n d. apply sts_1 in H as (p & -> & Hp). rewrite get_dtrans. cbn [f_hess s_rows prim par rnth nth_error rbind val].
    rewrite !get_row_hess by auto.
    destruct (eqb_idx (clamp (flat s) x) _), (eqb_idx (clamp (flat s) y) _); reflexivity.
Qed.
End Rows.

(** one parameter only: no request above the diagonal *)
Lemma both_1 s out f : hess_both (s :: nil) out f.
Proof. intros ps i j _ Hij Hj. cbn in Hj. lia. Qed.

(** *** the named primitives *)
Ltac rfield := cbv beta; match goal with |- ?a = ?b => change (@eq R a b) end; field.
Ltac rring := cbv beta; match goal with |- ?a = ?b => change (@eq R a b) end; ring.
Definition allR : R -> Prop := fun _ => True.
Lemma correct_weaken ss out (D D' : list dt -> Prop) f : (forall ps, D' ps -> D ps) -> correct ss out D f -> correct ss out D' f.
Proof.
  intros H [W G Hs S]. constructor; auto.
  - intros c v t Hc HD. apply (G c v t Hc). auto.
  - intros c v t Hc HD. apply (Hs c v t Hc). auto.
Qed.
Definition everywhere : list dt -> Prop := fun _ => True.
(** every entry of the first parameter is positive *)
Definition positive (s : pst) : list dt -> Prop :=
  fun ps => forall x, In x (indices (flat s)) -> 0 < parr (nth 0 ps dzero) x.

Lemma X_correct sh : correct ((sh, []) :: nil) (sh, []) everywhere s_X.
Proof.
  eapply correct_weaken; [|apply (entry_correct false true _ _ _ (sh, [])) with (P := allR)]; auto.
  - intros ps _ x _; exact I.
  - right; reflexivity.
  - intros v _. apply D_id.
  - intros v _. apply (D_const 1).
Qed.
Lemma Exp_correct s : correct (s :: nil) s everywhere s_Exp.
Proof.
  eapply correct_weaken; [|apply (entry_correct true false _ _ _ s) with (P := allR)]; auto.
  - intros ps _ x _; exact I.
  - left; reflexivity.
  - intros; discriminate.
  - intros v _. eapply is_derive_eq; [apply (D_exp (fun x => x)), D_id|rring].
  - intros v _. eapply is_derive_eq; [apply (D_exp (fun x => x)), D_id|rring].
Qed.
Lemma Log_correct s : correct (s :: nil) s (positive s) s_Log.
Proof.
  apply (entry_correct true false _ _ _ s) with (P := fun v => 0 < v).
  - left; reflexivity.
  - intros; discriminate.
  - intros v Hv. eapply is_derive_eq; [apply (D_ln (fun x => x)); [exact Hv|apply D_id]|]. rfield. lra.
  - intros v Hv. eapply is_derive_eq; [apply D_div; [lra|apply D_const|apply D_id]|]. rfield. lra.
Qed.
Lemma D_expit v : is_derive expit v (expit v * (1 - expit v)).
Proof.
  assert (P : 0 < 1 + exp (- v)) by (pose proof (exp_pos (- v)); lra).
  eapply is_derive_eq.
  - apply (D_div (fun _ => 1) (fun z => 1 + exp (- z))); [lra|apply D_const|].
    apply D_plus; [apply D_const|]. apply (D_exp (fun z => - z)). apply D_opp, D_id.
  - unfold expit. rfield. lra.
Qed.
Lemma Logistic_correct sh : correct ((sh, []) :: nil) (sh, []) everywhere s_Logistic.
Proof.
  eapply correct_weaken; [|apply (entry_correct false false _ _ _ (sh, [])) with (P := allR)]; auto.
  - intros ps _ x _; exact I.
  - right; reflexivity.
  - intros; discriminate.
  - intros v _. apply D_expit.
  - intros v _. eapply is_derive_eq; [apply D_mult; [apply D_expit|apply D_minus; [apply D_const|apply D_expit]]|]. rring.
Qed.
Lemma ArcTan_correct sh : correct ((sh, []) :: nil) (sh, []) everywhere s_ArcTan.
Proof.
  eapply correct_weaken; [|apply (entry_correct false false _ _ _ (sh, [])) with (P := allR)]; auto.
  - intros ps _ x _; exact I.
  - right; reflexivity.
  - intros; discriminate.
  - intros v _. assert (0 < 1 + v * v) by nra. eapply is_derive_eq; [apply is_derive_atan|]. unfold Rsqr. rfield. lra.
  - intros v _. assert (0 < 1 + v * v) by nra.
    eapply is_derive_eq; [apply D_div; [lra|apply D_const|apply D_plus; [apply D_const|apply D_mult; apply D_id]]|]. rfield. lra.
Qed.
Lemma SigmoidArctan_correct sh : correct ((sh, []) :: nil) (sh, []) everywhere s_SigmoidArctan.
Proof. apply affine_correct, ArcTan_correct. Qed.

Lemma D_shift F dF v k : (forall k, is_derive (fun a => F a k) v (dF v k)) ->
  is_derive (fun a => shift_row F a k) v (shift_row dF v k).
Proof. intros H. destruct k as [|k]; cbn; [apply D_const|apply H]. Qed.
Lemma D_pois v k : is_derive (fun a => pois_row a k) v (shift_row pois_row v k).
Proof.
  unfold pois_row. destruct k as [|k]; cbn [shift_row].
  - eapply is_derive_ext with (f := fun _ => 1 / INR (fact 0)); [intros; cbn; reflexivity|]. apply D_const.
  - eapply is_derive_eq.
    + eapply (D_mult (fun a => a ^ S k) (fun _ => / INR (fact (S k)))); [|apply D_const].
      apply (is_derive_pow (fun a => a) (S k) v 1). apply D_id.
    + rewrite Rmult_0_r, Rplus_0_r. replace (Nat.pred (S k)) with k by reflexivity.
      rewrite fact_simpl, mult_INR. rfield. split; [apply INR_fact_neq_0|apply not_0_INR; lia].
Qed.
Lemma Poisson_correct size s : correct (s :: nil) (flat s, size :: nil) everywhere (s_Poisson size).
Proof.
  eapply correct_weaken; [|apply (rows_correct size _ _ _ s) with (P := allR)]; auto.
  - intros ps _ x _; exact I.
  - intros v k _. apply D_pois.
  - intros v k _. apply D_shift. intros; apply D_pois.
Qed.
Lemma LNB_correct gammaln size r s : 0 < r ->
  correct (s :: nil) (flat s, size :: nil) (positive s) (s_LogNegativeBinomial gammaln size r).
Proof.
  intros Hr. apply (rows_correct size _ _ _ s) with (P := fun v => 0 < v).
  - intros v k Hv. unfold lnb_row.
    set (C := gammaln (r + INR k) - gammaln r + r * ln r - ln (INR (fact k))).
    apply is_derive_ext with (f := fun m => (INR k * ln m - (INR k + r) * ln (r + m)) + C); [intros m; unfold C; rring|].
    eapply is_derive_eq.
    + apply (D_plus (fun m => INR k * ln m - (INR k + r) * ln (r + m)) (fun _ => C)); [|apply D_const].
      apply (D_minus (fun m => INR k * ln m) (fun m => (INR k + r) * ln (r + m))).
      * apply (D_scal (INR k) ln). apply (D_ln (fun z => z)); [exact Hv|apply D_id].
      * apply (D_scal (INR k + r) (fun m => ln (r + m))). apply (D_ln (fun z => r + z)); [lra|]. apply (D_plus (fun _ => r) (fun z => z)); [apply D_const|apply D_id].
    + rfield. split; lra.
  - intros v k Hv. eapply is_derive_eq.
    + apply D_minus.
      * apply D_div; [lra|apply D_const|apply D_id].
      * apply D_div; [|apply D_const|apply D_plus; [apply D_const|apply D_id]]. lra.
    + rfield. split; lra.
Qed.

(** Scalar, Vector, Constant *)
Lemma Scalar_correct : correct (([], []) :: nil) ([], []) everywhere s_Scalar.
Proof.
  assert (W : wellformed (([], []) :: nil) ([], []) s_Scalar).
  { constructor.
    - intros ps H. apply sts_1 in H as (p & -> & Hp). cbn. eexists; split; [reflexivity|].
      destruct Hp as (? & ? & ? & ?). repeat split; auto.
    - intros ps i H Hi. cbn in Hi. replace i with 0%nat by lia. cbn. eexists; split; [reflexivity|].
      repeat split; cbn; auto using ax_sub_refl.
    - intros. eexists; split; [reflexivity|apply tst_zero].
    - intros ps ps' H H' E. apply sts_1 in H as (p & -> & Hp). apply sts_1 in H' as (p' & -> & Hp').
      apply Forall2_cons_iff in E as [E _]. split; [|split; intros; apply deq_refl].
      intros x y n d. cbn [f_call s_Scalar prim par rnth nth_error rbind val]. rewrite !(get_ufun ([], [])) by auto. now rewrite E.
    - cbn; discriminate.
    - intros; apply isnil_zero.
    - cbn; discriminate. }
  constructor; auto.
  - intros c v t Hc _ n d Hn Hd. pose proof Hc as [St Dc].
    destruct Hn as [<-|[]], Hd as [<-|[]].
    eapply is_derive_ext with (f := fun z => parr (nth 0 (c z) dzero) []).
    { intros z. destruct (sts_1 _ _ (St z)) as (p & Ep & Hp). rewrite Ep. cbn [nth f_call s_Scalar prim par rnth nth_error rbind val].
      rewrite !(get_ufun ([], [])) by auto. unfold parr. now rewrite firstn_nil, skipn_nil. }
    eapply is_derive_eq; [apply (Dc 0%nat []); cbn; auto|]. rewrite pairing_1. cbn. unfold Rsum; cbn. rring.
  - intros c v t Hc _ i x n d Hi Hx Hn Hd. eapply is_derive_eq; [apply (D_const 1)|].
    symmetry. rewrite pairing_1. apply Rsum_zero. intros y _. unfold hess_at. destruct (Nat.leb 0 i); cbn; rring.
  - intros ps i H Hi. apply deq_refl.
Qed.

Lemma Vector_correct sh V : correct (([], []) :: nil) (sh, []) everywhere (s_Vector sh V).
Proof.
  assert (W : wellformed (([], []) :: nil) (sh, []) (s_Vector sh V)).
  { constructor.
    - intros ps H. apply sts_1 in H as (p & -> & Hp). cbn. eexists; split; [reflexivity|]. repeat split; auto.
    - intros ps i H Hi. cbn in Hi. replace i with 0%nat by lia. cbn. eexists; split; [reflexivity|].
      repeat split; cbn; auto using ax_sub_refl.
    - intros. eexists; split; [reflexivity|apply tst_zero].
    - intros ps ps' H H' E. apply sts_1 in H as (p & -> & Hp). apply sts_1 in H' as (p' & -> & Hp').
      apply Forall2_cons_iff in E as [E _]. split; [|split; intros; apply deq_refl].
      intros x y n d. cbn [f_call s_Vector prim par rnth nth_error rbind val]. unfold darr. unfold get; cbn [xs ys ns ds at_].
      now rewrite (parr_deq ([], []) p p').
    - cbn; discriminate.
    - intros; apply isnil_zero.
    - cbn; discriminate. }
  constructor; auto.
  - intros c v t Hc _ n d Hn Hd. pose proof Hc as [St Dc]. cbn [fst snd] in *.
    eapply is_derive_ext with (f := fun z => V n * parr (nth 0 (c z) dzero) []).
    { intros z. destruct (sts_1 _ _ (St z)) as (p & Ep & Hp). rewrite Ep. cbn [nth f_call s_Vector prim par rnth nth_error rbind val].
      unfold get, darr; cbn [xs ys ns ds at_]. rewrite (clamp_in sh) by auto. rring. }
    eapply is_derive_eq; [apply D_scal, (Dc 0%nat []); cbn; auto|]. rewrite pairing_1. cbn [flat fst snd app indices]. rewrite Rsum_cons, Rsum_nil.
    cbn [f_grad s_Vector prim val]. unfold get, darr; cbn [xs ys ns ds at_]. rewrite (clamp_in sh) by auto. rring.
  - intros c v t Hc _ i x n d Hi Hx Hn Hd. eapply is_derive_eq; [apply (D_const (get (darr sh V) x [] n d))|].
    symmetry. rewrite pairing_1. apply Rsum_zero. intros y _. unfold hess_at. destruct (Nat.leb 0 i); cbn; rring.
  - intros ps i H Hi. apply deq_refl.
Qed.

Lemma Constant_correct ss sh V : correct ss (sh, []) everywhere (s_Constant sh V).
Proof.
  assert (W : wellformed ss (sh, []) (s_Constant sh V)).
  { constructor.
    - intros; eexists; split; [reflexivity|]. repeat split.
    - intros; eexists; split; [reflexivity|apply tst_zero].
    - intros; eexists; split; [reflexivity|apply tst_zero].
    - intros; repeat split; intros; apply deq_refl.
    - intros; apply isnil_zero.
    - intros; apply isnil_zero.
    - intros; apply isnil_zero. }
  constructor; auto.
  - intros c v t Hc _ n d Hn Hd. eapply is_derive_eq; [apply (D_const (get (darr sh V) [] [] n d))|].
    symmetry. rewrite <- (pairing_zero ss v). apply pairing_ext. reflexivity.
  - intros c v t Hc _ i x n d Hi Hx Hn Hd. eapply is_derive_eq; [apply (D_const 0)|].
    symmetry. rewrite <- (pairing_zero ss v). apply pairing_ext. intros. unfold hess_at. destruct (Nat.leb _ _); reflexivity.
  - intros ps i H Hi. apply deq_refl.
Qed.
Lemma Constant_both ss sh V : hess_both ss (sh, []) (s_Constant sh V).
Proof. intros ps i j H Hij Hj. eexists; split; [reflexivity|]. split; [apply tst_zero|apply deq_refl]. Qed.

(** Quadratic, any number of parameters of any shape *)
Lemma par_st ss ps i : has_sts ps ss -> (i < length ss)%nat -> par ps i = Ok (nth i ps dzero) /\ has_st (nth i ps dzero) (nth i ss ([],[])).
Proof.
  intros H Hi. split; [|now apply has_sts_nth]. apply rnth_ok. now rewrite (has_sts_length _ _ H).
Qed.
Lemma Rsum_nth {A} (g : A -> R) (l : list A) d : Rsum g l = Rsum (fun i => g (nth i l d)) (seq 0 (length l)).
Proof.
  induction l as [|a l IH]; auto. cbn [length seq]. rewrite !Rsum_cons. cbn [nth]. f_equal. rewrite IH, <- seq_shift, Rsum_map. reflexivity.
Qed.
Lemma get_quad_val p s (g : R -> R) : has_st p s -> asum (pshape p) (fun k => g (parr p k)) = Rsum (fun k => g (parr p k)) (indices (flat s)).
Proof. intros Hp. unfold asum. rewrite sumR_map, (pshape_st s p Hp). reflexivity. Qed.

Lemma Quadratic_correct u s ss : s <> 0 -> correct ss ([], []) everywhere (s_Quadratic u s).
Proof.
  intros Hs. set (q := fun a => ((a - u) / s) * ((a - u) / s)).
  assert (VAL : forall ps, has_sts ps ss -> f_call (s_Quadratic u s) ps =
     Ok (dconst (Rsum (fun i => Rsum (fun k => q (parr (nth i ps dzero) k)) (indices (flat (nth i ss ([],[]))))) (seq 0 (length ss))))).
  { intros ps H. cbn. f_equal. f_equal. rewrite sumR_map. rewrite (Rsum_nth _ ps dzero), (has_sts_length _ _ H).
    apply Rsum_ext; intros i Hi. apply in_seq in Hi. apply (get_quad_val _ _ q). apply has_sts_nth; auto; lia. }
  assert (GR : forall ps i, has_sts ps ss -> (i < length ss)%nat -> exists g, f_grad (s_Quadratic u s) ps i = Ok g /\
     tst (flat (nth i ss ([],[]))) [] ([], []) g /\ forall x y n d, get g x y n d = 2 * ((parr (nth i ps dzero) (clamp (flat (nth i ss ([],[]))) x) - u) / s) / s).
  { intros ps i H Hi. destruct (par_st ss ps i H Hi) as [E Hp]. cbn. rewrite E. cbn [rbind]. eexists; split; [reflexivity|].
    pose proof (pshape_st _ _ Hp) as Es. split; [repeat split; cbn [xs ys ns ds]; auto using ax_sub_refl|].
    intros x y n d. unfold get; cbn [xs ys ns ds at_]. now rewrite Es. }
  assert (HE : forall ps i j, has_sts ps ss -> (i < length ss)%nat -> exists h, f_hess (s_Quadratic u s) ps i j = Ok h /\
     tst (flat (nth i ss ([],[]))) (flat (nth j ss ([],[]))) ([], []) h /\
     forall x y n d, get h x y n d = if Nat.eqb i j then if eqb_idx (clamp (flat (nth i ss ([],[]))) x) (clamp (flat (nth i ss ([],[]))) y) then 2 * 1 / s / s else 0 else 0).
  { intros ps i j H Hi. cbn. destruct (Nat.eqb_spec i j) as [<-|Nij].
    - destruct (par_st ss ps i H Hi) as [E Hp]. rewrite E. cbn [rbind]. eexists; split; [reflexivity|].
      pose proof (pshape_st _ _ Hp) as Es. split; [repeat split; cbn [xs ys ns ds]; auto using ax_sub_refl|].
      intros x y n d. unfold get; cbn [xs ys ns ds at_]. now rewrite Es.
    - eexists; split; [reflexivity|]. split; [apply tst_zero|reflexivity]. }
  assert (W : wellformed ss ([], []) (s_Quadratic u s)).
  { constructor.
    - intros ps H. rewrite VAL by auto. eexists; split; [reflexivity|]. repeat split.
    - intros ps i H Hi. destruct (GR ps i H Hi) as (g & ? & ? & _); eauto.
    - intros ps i j H Hi Hj. destruct (HE ps i j H Hi) as (g & ? & ? & _); eauto.
    - intros ps ps' H H' E.
      assert (PE : forall i k, (i < length ss)%nat -> parr (nth i ps dzero) k = parr (nth i ps' dzero) k).
      { intros i k Hi. apply (parr_deq (nth i ss ([],[]))); try (now apply has_sts_nth). now apply deq_nth. }
      split; [|split].
      + rewrite !VAL by auto. intros x y n d. cbn [val]. rewrite !get_const. apply Rsum_ext; intros i Hi. apply in_seq in Hi.
        apply Rsum_ext; intros k _. rewrite PE; auto; lia.
      + intros i Hi x y n d. destruct (GR ps i H Hi) as (g & -> & _ & Q), (GR ps' i H' Hi) as (g' & -> & _ & Q'). cbn [val].
        now rewrite Q, Q', PE.
      + intros i j Hi Hj x y n d. destruct (HE ps i j H Hi) as (g & -> & _ & Q), (HE ps' i j H' Hi) as (g' & -> & _ & Q'). cbn [val].
        now rewrite Q, Q'.
    - cbn; discriminate.
    - cbn; discriminate.
    - cbn; discriminate. }
  constructor; auto.
  - intros c v t Hc _ n d Hn Hd. pose proof Hc as [St Dc].
    eapply is_derive_ext with (f := fun z => Rsum (fun i => Rsum (fun k => q (parr (nth i (c z) dzero) k)) (indices (flat (nth i ss ([],[]))))) (seq 0 (length ss))).
    { intros z. now rewrite VAL. }
    unfold pairing. apply is_derive_Rsum. intros i Hi. apply in_seq in Hi. apply is_derive_Rsum. intros k Hk.
    eapply is_derive_eq.
    + apply (D_comp q); [|apply (Dc i k); auto; lia]. unfold q.
      apply D_mult; (apply (D_div (fun z => z - u) (fun _ => s)); [auto|apply D_minus; [apply D_id|apply D_const]|apply D_const]).
    + destruct (GR (c t) i (St t) ltac:(lia)) as (g & -> & _ & Q). cbn [val]. rewrite Q, clamp_in by auto. field. auto.
  - intros c v t Hc _ i x n d Hi Hx Hn Hd. pose proof Hc as [St Dc].
    eapply is_derive_ext with (f := fun z => 2 * ((parr (nth i (c z) dzero) x - u) / s) / s).
    { intros z. destruct (GR (c z) i (St z) Hi) as (g & -> & _ & Q). cbn [val]. now rewrite Q, clamp_in. }
    eapply is_derive_eq.
    + apply (D_div (fun z => 2 * ((parr (nth i (c z) dzero) x - u) / s)) (fun _ => s)); [auto| |apply D_const].
      apply D_scal. apply (D_div (fun z => parr (nth i (c z) dzero) x - u) (fun _ => s)); [auto| |apply D_const].
      apply D_minus; [apply (Dc i x); auto|apply D_const].
    + unfold pairing.
      assert (HA : forall j y, (j < length ss)%nat -> In y (indices (flat (nth j ss ([],[])))) ->
         hess_at (s_Quadratic u s) (c t) i j x y n d = if Nat.eqb j i then if eqb_idx y x then 2 / s / s else 0 else 0).
      { intros j y Hj Hy. unfold hess_at. destruct (Nat.leb_spec j i).
        - destruct (HE (c t) i j (St t) Hi) as (h & -> & _ & Q). cbn [val]. rewrite Q, (Nat.eqb_sym j i). destruct (Nat.eqb_spec i j) as [<-|]; auto.
          rewrite !clamp_in by auto. destruct (eqb_idx_spec x y), (eqb_idx_spec y x); try congruence. now rewrite Rmult_1_r.
        - destruct (HE (c t) j i (St t) Hj) as (h & -> & _ & Q). cbn [val]. rewrite Q. destruct (Nat.eqb_spec j i); auto; lia. }
      symmetry. erewrite (Rsum_ext _ (fun j => if Nat.eqb j i then 2 / s / s * v i x else 0)).
      * assert (ND : NoDup (seq 0 (length ss))) by apply seq_NoDup. assert (Ii : In i (seq 0 (length ss))) by (apply in_seq; lia).
        revert ND Ii. generalize (seq 0 (length ss)). clear - Hs. induction l as [|a l IH]; intros ND Ii; [destruct Ii|destruct Ii as [-> | Ii]].
        -- rewrite Rsum_cons, Nat.eqb_refl. inversion ND; subst. rewrite (Rsum_zero _ l); [field; auto|].
           intros b Hb. destruct (Nat.eqb_spec b i); subst; [contradiction|auto].
        -- inversion ND; subst. rewrite Rsum_cons, IH by auto. destruct (Nat.eqb_spec a i); [subst; contradiction|ring].
      * intros j Hj. apply in_seq in Hj. destruct (Nat.eqb_spec j i) as [->|Nj].
        -- rewrite <- (Rsum_delta (indices (flat (nth i ss ([],[])))) x (fun y => 2 / s / s * v i y)) by (auto using NoDup_indices).
           apply Rsum_ext; intros y Hy. rewrite HA by auto. rewrite Nat.eqb_refl. destruct (eqb_idx y x); ring.
        -- apply Rsum_zero. intros y Hy. rewrite HA by (auto; lia). destruct (Nat.eqb_spec j i); [contradiction|ring].
  - intros ps i H Hi x y n d. rewrite get_dtrans. destruct (HE ps i i H Hi) as (h & -> & _ & Q). cbn [val]. rewrite !Q, Nat.eqb_refl.
    destruct (eqb_idx_spec (clamp (flat (nth i ss ([],[]))) x) (clamp (flat (nth i ss ([],[]))) y)),
      (eqb_idx_spec (clamp (flat (nth i ss ([],[]))) y) (clamp (flat (nth i ss ([],[]))) x)); congruence.
Qed.
Lemma Quadratic_both u s ss : s <> 0 -> hess_both ss ([], []) (s_Quadratic u s).
Proof.
  intros Hs ps i j H Hij Hj. cbn. destruct (Nat.eqb_spec i j); [lia|]. destruct (Nat.eqb_spec j i); [lia|].
  eexists; split; [reflexivity|]. split; [apply tst_zero|apply deq_refl].
Qed.

(** Linear: its gradient has axes of size 1, so it is not [wellformed], but the
    entries read through broadcasting are the derivatives. *)
Lemma Linear_grad ws ss : length ws = length ss -> grad_correct ss ([], []) everywhere (s_Linear ws).
Proof.
  intros L c v t Hc _ n d Hn Hd. pose proof Hc as [St Dc].
  eapply is_derive_ext with (f := fun z => Rsum (fun i => Rsum (fun k => parr (nth i (c z) dzero) k * nth i ws 0) (indices (flat (nth i ss ([],[]))))) (seq 0 (length ss))).
  { intros z. cbn. rewrite sumR_map.
    assert (Lc : length (combine (c z) ws) = length ss) by (rewrite combine_length, (has_sts_length _ _ (St z)); lia).
    rewrite (Rsum_nth _ _ (dzero, 0)), Lc. apply Rsum_ext; intros i Hi. apply in_seq in Hi.
    rewrite combine_nth by (rewrite (has_sts_length _ _ (St z)); lia). symmetry.
    apply (get_quad_val _ _ (fun a => a * nth i ws 0)). apply has_sts_nth; auto; lia. }
  unfold pairing. apply is_derive_Rsum. intros i Hi. apply in_seq in Hi. apply is_derive_Rsum. intros k Hk.
  eapply is_derive_eq.
  - apply (D_mult _ (fun _ => nth i ws 0)); [apply (Dc i k); auto; lia|apply D_const].
  - cbn [f_grad s_Linear prim]. rewrite (rnth_ok ws i 0) by lia. cbn [rbind].
    destruct (par_st ss (c t) i (St t) ltac:(lia)) as [-> _]. cbn [rbind val]. unfold get; cbn [at_]. ring.
Qed.
Lemma Linear_hess ws ss : length ws = length ss -> hess_correct ss ([], []) everywhere (s_Linear ws).
Proof.
  intros L c v t Hc _ i x n d Hi Hx Hn Hd. pose proof Hc as [St Dc].
  eapply is_derive_ext with (f := fun _ => nth i ws 0).
  { intros z. cbn [f_grad s_Linear prim]. rewrite (rnth_ok ws i 0) by lia. cbn [rbind].
    destruct (par_st ss (c z) i (St z) ltac:(lia)) as [-> _]. reflexivity. }
  eapply is_derive_eq; [apply D_const|]. rewrite <- (pairing_zero ss v). apply pairing_ext. intros j y Hj Hy.
  unfold hess_at. destruct (Nat.leb j i); cbn [f_hess s_Linear prim];
    destruct (par_st ss (c t) i (St t) ltac:(lia)) as [-> _], (par_st ss (c t) j (St t) ltac:(lia)) as [-> _]; reflexivity.
Qed.
