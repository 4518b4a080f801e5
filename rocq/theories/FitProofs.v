(** Proofs about FitModel.v *)
From Coq Require Import String.
From Verif Require Import Prelude ParamModel ParamProofs ParamSpec FitModel FitSpec.

Local Arguments Nat.ltb : simpl never.
Local Arguments String.eqb : simpl never.

Section Proofs.
Context {F M Y D H T : Type}.
Variable E : estimator F M Y D H T.
Implicit Types (s : state F M T) (ps : list (param F)) (tr : list (event F)).

(** *** frames *)
Lemma same_frame_refl ps : same_frame ps ps.
Proof. repeat split. Qed.
Lemma reshape_same_frame ps flat qs : Forall param_wf ps -> reshape_params ps flat = Ok qs ->
  same_frame ps qs /\ Forall param_wf qs.
Proof.
  intros Hw R. destruct (reshape_params_preserves ps flat qs Hw R) as (A & B & C & D' & W).
  split; auto. split; [rewrite <- (map_length p_shape qs), A, map_length; auto|].
  split; auto. split; auto. rewrite !(map_ext _ _ entries_fixed). exact C.
Qed.

(** *** inner loop *)
Lemma inner_accepted v d self flat step g0 n : forall mult tr nf ps g,
  inner E v d self flat step g0 n mult = (tr, Accepted nf ps g) ->
  exists m, In m (halvings E n mult) /\
    v_op (f_sub E) flat (map (f_mul E m) step) = Ok nf /\
    reshape_params self nf = Ok ps /\ g_at E d ps = Ok g /\ f_ge E g g0 = true.
Proof.
  induction n as [|n IH]; intros mult tr nf ps g R; cbn in R; [discriminate|].
  destruct (v_op (f_sub E) flat (map (f_mul E mult) step)) as [nf0|] eqn:E1; [|discriminate].
  destruct (reshape_params self nf0) as [ps0|] eqn:E2; [|discriminate].
  destruct (g_at E d ps0) as [g'|] eqn:E3; [|discriminate].
  destruct (f_ge E g' g0) eqn:E4.
  - injection R as <- <- <- <-. exists mult. cbn; auto.
  - destruct (inner E v d self flat step g0 n (f_mul E mult (f_half E))) as [tr' r'] eqn:E5.
    injection R as <- ->. destruct (IH _ _ _ _ _ E5) as (m & Hm & Rest).
    exists m. cbn; auto.
Qed.

(** trials of the inner loop *)
Lemma inner_trace v d self flat step g0 n : forall mult tr r,
  inner E v d self flat step g0 n mult = (tr, r) ->
  exists j, j <= n /\ trial_mults tr = firstn j (halvings E n mult) /\ count_steps tr = 0 /\
    count_trials tr = j /\ Forall (fun e => match e with EvTrial _ _ => True | _ => False end) (quiet tr).
Proof.
  induction n as [|n IH]; intros mult tr r R; cbn in R.
  - injection R as <- <-. exists 0. cbn; auto.
  - destruct (v_op (f_sub E) flat (map (f_mul E mult) step)) as [nf0|] eqn:E1.
    2:{ injection R as <- <-. exists 0. cbn. repeat split; auto. lia. }
    destruct (reshape_params self nf0) as [ps0|] eqn:E2.
    2:{ injection R as <- <-. exists 0. cbn. repeat split; auto. lia. }
    destruct (g_at E d ps0) as [g'|] eqn:E3.
    2:{ injection R as <- <-. exists 1. cbn. repeat split; auto. lia. }
    destruct (f_ge E g' g0) eqn:E4.
    + injection R as <- <-. exists 1. cbn. repeat split; auto. lia.
    + destruct (inner E v d self flat step g0 n (f_mul E mult (f_half E))) as [tr' r'] eqn:E5.
      injection R as <- ->. destruct (IH _ _ _ E5) as (j & Hj & A & B & C & Q).
      exists (S j). unfold trial_mults, count_trials, count_steps, quiet in *.
      destruct (1 <? v); cbn; rewrite A; repeat split; auto; lia.
Qed.

(** verbosity *)
Lemma inner_verbose v w d self flat step g0 n : forall mult,
  snd (inner E v d self flat step g0 n mult) = snd (inner E w d self flat step g0 n mult) /\
  quiet (fst (inner E v d self flat step g0 n mult)) = quiet (fst (inner E w d self flat step g0 n mult)).
Proof.
  induction n as [|n IH]; intros mult; cbn; auto.
  destruct (v_op _ _ _); auto. destruct (reshape_params _ _); auto. destruct (g_at _ _ _); auto.
  destruct (f_ge _ _ _); auto.
  specialize (IH (f_mul E mult (f_half E))).
  destruct (inner E v _ _ _ _ _ n _) as [t1 r1], (inner E w _ _ _ _ _ n _) as [t2 r2]. cbn in *.
  destruct IH as [<- IH]. split; auto. destruct (1 <? v), (1 <? w); cbn; now rewrite IH.
Qed.

(** *** Newton *)
Definition last_step (s s' : state F M T) (flat0 : list F) (ps0 : list (param F)) (tol : F) : Prop :=
  exists flat_x x step g0 grad hess nf m g,
    ((flat_x = flat0 /\ x = ps0) \/ reshape_params (s_params s) flat_x = Ok x) /\
    newton_step E (s_data s) x = Ok (step, g0, grad, hess) /\
    In m (multipliers E) /\
    v_op (f_sub E) flat_x (map (f_mul E m) step) = Ok nf /\
    reshape_params (s_params s) nf = Ok (s_params s') /\
    g_at E (s_data s) (s_params s') = Ok g /\ f_ge E g g0 = true /\
    criterion E g0 g tol = Ok true /\ s_hess s' = Some hess /\
    s_conv s' = s_conv s /\ s_data s' = s_data s.

Lemma newton_success v tol s k : forall flat ps tr s' b,
  newton_loop E v tol s k flat ps = (tr, s', Ok b) -> b = true /\ last_step s s' flat ps tol.
Proof.
  induction k as [|k IH]; intros flat ps tr s' b R; cbn [newton_loop] in R; [discriminate|].
  destruct (newton_step E (s_data s) ps) as [[[[step g0] grad] hess]|] eqn:E1; [|discriminate].
  destruct (inner E v (s_data s) (s_params s) flat step g0 5 (f_one E)) as [tr1 r1] eqn:E2.
  destruct r1 as [nf nps g| |e]; try discriminate.
  destruct (criterion E g0 g tol) as [[]|] eqn:E3; try discriminate.
  - injection R as <- <- <-. split; auto.
    destruct (inner_accepted _ _ _ _ _ _ _ _ _ _ _ _ E2) as (m & Hm & A & B & C & G).
    exists flat, ps, step, g0, grad, hess, nf, m, g. cbn. repeat split; auto.
  - destruct (newton_loop E v tol s k nf nps) as [[tr2 s2] out] eqn:E4. injection R as <- <- ->.
    destruct (IH _ _ _ _ _ E4) as [-> L]. split; auto.
    destruct (inner_accepted _ _ _ _ _ _ _ _ _ _ _ _ E2) as (m & Hm & A & B & C & G).
    destruct L as (fx & x & st & g1 & gr & he & nf2 & m2 & g2 & Hx & Rest).
    exists fx, x, st, g1, gr, he, nf2, m2, g2. split; auto.
    destruct Hx as [[-> ->]|Hx]; auto.
Qed.
Ltac nstep R E1 E2 E3 :=
  match type of R with context [newton_step ?xE ?xd ?xps] =>
    destruct (newton_step xE xd xps) as [[[[step g0] grad] hess]|err] eqn:E1 end;
  [match type of R with context [inner ?xE ?xv ?xd ?xsp ?xfl ?xst ?xg ?xn ?xm] =>
    destruct (inner xE xv xd xsp xfl xst xg xn xm) as [tr1 [nf nps g | | e1]] eqn:E2 end;
   [match type of R with context [criterion ?xE ?xa ?xb ?xc] =>
      destruct (criterion xE xa xb xc) as [[]|e2] eqn:E3 end| | ] | ].

Lemma newton_raise v tol s k : forall flat ps tr s' e,
  newton_loop E v tol s k flat ps = (tr, s', Raise e) ->
  s_params s' = s_params s /\ s_hess s' = s_hess s /\ s_data s' = s_data s /\
  (s_conv s' = s_conv s \/ s_conv s' = false).
Proof.
  induction k as [|k IH]; intros flat ps tr s' e R; cbn [newton_loop] in R.
  - injection R as <- <- <-. cbn; auto.
  - nstep R E1 E2 E3; try discriminate; try (injection R as <- <- <-; cbn; auto; fail).
    destruct (newton_loop E v tol s k nf nps) as [[tr2 s2] out] eqn:E4. injection R as <- <- ->.
    eauto.
Qed.

(** exceptions of the modelled numpy plumbing *)
Definition plumbing (e : exn) : Prop :=
  e = ValueError \/ e = IndexError \/ e = AssertionError \/ e = ZeroDivisionError.

Lemma v_op_exn op (a b : list F) e : v_op op a b = Raise e -> plumbing e.
Proof.
  unfold v_op, plumbing. destruct (_ =? _); [discriminate|].
  destruct b as [|y [|]], a as [|x [|]]; intros [= <-]; auto.
Qed.
Lemma v_iadd_exn (a b : list F) e : v_iadd E a b = Raise e -> plumbing e.
Proof.
  unfold v_iadd, plumbing. destruct (_ =? _); [discriminate|].
  destruct b as [|y [|]]; intros [= <-]; auto.
Qed.
Lemma cut_index_exn c n e : cut_index c n = Raise e -> plumbing e.
Proof. unfold cut_index, plumbing. destruct (_ =? _); [|discriminate]. intros [= <-]; auto. Qed.

Lemma reshape_vals_exn (flat vals : list F) ps : forall (s0 f0 : nat) e,
  reshape_vals flat vals s0 f0 ps = Raise e -> plumbing e.
Proof.
  unfold plumbing. induction ps as [|p ps IH]; intros s0 f0 e R; cbn [reshape_vals] in R; [discriminate|].
  destruct (np_insert _ _ _) as [l|e1] eqn:E1; cbn [rbind] in R.
  - unfold np_reshape in R. destruct (_ =? _); cbn [rbind] in R; [|injection R as <-; auto].
    unfold Param_init, py_assert in R. destruct (shape_eqb _ _); cbn [rbind] in R; [|injection R as <-; auto].
    destruct (reshape_vals _ _ _ _ ps) eqn:E2; cbn [rbind] in R; [discriminate|]. injection R as <-. eauto.
  - injection R as <-. unfold np_insert in E1. destruct (existsb _ _); [injection E1 as <-; auto|].
    destruct (_ =? _); [discriminate|]. destruct (slice _ _ vals) as [|? [|]]; try discriminate; injection E1 as <-; auto.
Qed.
Lemma reshape_params_exn ps flat e : reshape_params ps flat = Raise e -> plumbing e.
Proof.
  unfold reshape_params. destruct ps as [|p ps]; cbn [map np_concatenate rbind].
  - intros [= <-]. unfold plumbing; auto.
  - apply reshape_vals_exn.
Qed.
Lemma g_at_exn d ps e : oracles_never_raise E e -> g_at E d ps <> Raise e.
Proof.
  intros (A & B & C & D' & O & _) R. unfold g_at in R. destruct (model_call E ps) eqn:X; cbn in R.
  - eapply O; eauto.
  - injection R as ->. eapply C; eauto.
Qed.
Lemma newton_step_exn d ps e : oracles_never_raise E e -> ~ plumbing e -> newton_step E d ps <> Raise e.
Proof.
  intros (A & B & C & D' & O & G & Hs & S & _) P R. unfold newton_step in R.
  destruct (model_eval E ps) as [[[y der] hs]|] eqn:X1; cbn in R; [|injection R as ->; eapply B; eauto].
  destruct (objective E d ps y) eqn:X2; cbn in R; [|injection R as ->; eapply O; eauto].
  destruct (flat_grad E d ps y der) eqn:X3; cbn in R; [|injection R as ->; eapply G; eauto].
  destruct (flat_hess E d ps y der hs) eqn:X4; cbn in R; [|injection R as ->; eapply Hs; eauto].
  destruct (np_solve E _ _) eqn:X5; cbn in R; [|injection R as ->; eapply S; eauto].
  destruct (cut_index _ _) eqn:X6; cbn in R; [discriminate|].
  injection R as ->. apply P. eapply cut_index_exn; eauto.
Qed.
Lemma inner_exn v d self flat step g0 n e : oracles_never_raise E e -> ~ plumbing e ->
  forall mult tr, inner E v d self flat step g0 n mult <> (tr, InnerRaise e).
Proof.
  intros O P. induction n as [|n IH]; intros mult tr R; cbn in R; [discriminate|].
  destruct (v_op (f_sub E) flat (map (f_mul E mult) step)) as [nf0|] eqn:E1.
  2:{ injection R as <- ->. apply P; eapply v_op_exn; eauto. }
  destruct (reshape_params self nf0) as [ps0|] eqn:E2.
  2:{ injection R as <- ->. apply P; eapply reshape_params_exn; eauto. }
  destruct (g_at E d ps0) as [g'|] eqn:E3.
  2:{ injection R as <- ->. eapply g_at_exn; eauto. }
  destruct (f_ge E g' g0) eqn:E4; [discriminate|].
  destruct (inner E v d self flat step g0 n (f_mul E mult (f_half E))) as [tr' r'] eqn:E5.
  injection R as <- ->. eapply IH; eauto.
Qed.
Lemma criterion_exn a b t e : oracles_never_raise E e -> criterion E a b t <> Raise e.
Proof.
  intros (A & _) R. unfold criterion in R. destruct (f_div E a b) eqn:X; cbn in R; [discriminate|].
  injection R as ->. eapply A; eauto.
Qed.

Lemma newton_conv_error v tol s k : oracles_never_raise E ConvergenceError ->
  forall flat ps tr s', newton_loop E v tol s k flat ps = (tr, s', Raise ConvergenceError) ->
  s_conv s' = false.
Proof.
  intros O. assert (P : ~ plumbing ConvergenceError) by (unfold plumbing; intuition discriminate).
  induction k as [|k IH]; intros flat ps tr s' R; cbn [newton_loop] in R.
  - injection R as <- <-. reflexivity.
  - nstep R E1 E2 E3; try discriminate.
    + destruct (newton_loop E v tol s k nf nps) as [[tr2 s2] out] eqn:E4. injection R as <- <- ->. eauto.
    + injection R as <- <- ->. exfalso; eapply criterion_exn; eauto.
    + injection R as <- <-. reflexivity.
    + injection R as <- <- ->. exfalso. eapply inner_exn; eauto.
    + injection R as <- <- ->. exfalso. eapply newton_step_exn; eauto.
Qed.
Lemma newton_other_error v tol s k : forall flat ps tr s' e,
  newton_loop E v tol s k flat ps = (tr, s', Raise e) -> e <> ConvergenceError -> s_conv s' = s_conv s.
Proof.
  induction k as [|k IH]; intros flat ps tr s' e R N; cbn [newton_loop] in R.
  - injection R as <- <- <-. congruence.
  - nstep R E1 E2 E3; try discriminate; try (injection R as <- <- <-; cbn; auto; congruence).
    destruct (newton_loop E v tol s k nf nps) as [[tr2 s2] out] eqn:E4. injection R as <- <- ->. eauto.
Qed.

(** monotone objective *)
Definition eval_consistent : Prop :=
  forall ps y der hs, model_eval E ps = Ok (y, der, hs) -> model_call E ps = Ok y.
Definition ge_transitive : Prop :=
  forall a b c, f_ge E a b = true -> f_ge E b c = true -> f_ge E a c = true.

Lemma newton_step_g d ps step g0 grad hess : eval_consistent ->
  newton_step E d ps = Ok (step, g0, grad, hess) -> g_at E d ps = Ok g0.
Proof.
  intros C R. unfold newton_step in R.
  destruct (model_eval E ps) as [[[y der] hs]|] eqn:X1; cbn in R; [|discriminate].
  unfold g_at. rewrite (C _ _ _ _ X1). cbn.
  destruct (objective E d ps y) eqn:X2; cbn in R; [|discriminate].
  destruct (flat_grad E d ps y der); cbn in R; [|discriminate].
  destruct (flat_hess E d ps y der hs); cbn in R; [|discriminate].
  destruct (np_solve E _ _); cbn in R; [|discriminate].
  destruct (cut_index _ _); cbn in R; [|discriminate].
  injection R as <- <- <- <-. reflexivity.
Qed.

Lemma newton_monotone v tol s k : eval_consistent -> ge_transitive ->
  forall flat ps tr s' b, newton_loop E v tol s k flat ps = (tr, s', Ok b) ->
  exists g0 g1, g_at E (s_data s) ps = Ok g0 /\ g_at E (s_data s) (s_params s') = Ok g1 /\
    f_ge E g1 g0 = true.
Proof.
  intros C Tr. induction k as [|k IH]; intros flat ps tr s' b R; cbn [newton_loop] in R; [discriminate|].
  nstep R E1 E2 E3; try discriminate.
  - injection R as <- <- <-.
    destruct (inner_accepted _ _ _ _ _ _ _ _ _ _ _ _ E2) as (m & Hm & A & B & G & GE).
    exists g0, g. split; [eapply newton_step_g; eauto|]. cbn. auto.
  - destruct (newton_loop E v tol s k nf nps) as [[tr2 s2] out] eqn:E4. injection R as <- <- ->.
    destruct (inner_accepted _ _ _ _ _ _ _ _ _ _ _ _ E2) as (m & Hm & A & B & G & GE).
    destruct (IH _ _ _ _ _ E4) as (ga & gb & Ga & Gb & GE').
    rewrite G in Ga. injection Ga as <-.
    exists g0, gb. repeat split; auto. + eapply newton_step_g; eauto. + eapply Tr; eauto.
Qed.

(** work *)
Definition is_segment (seg : list (event F)) : Prop :=
  exists ps trials j, seg = EvStep ps :: trials /\
    Forall (fun e => match e with EvTrial _ _ => True | _ => False end) trials /\
    j <= 5 /\ trial_mults trials = firstn j (multipliers E).

Lemma quiet_app (a b : list (event F)) : quiet (a ++ b) = quiet a ++ quiet b.
Proof. unfold quiet. apply filter_app. Qed.
Lemma trial_mults_quiet tr : trial_mults (quiet tr) = trial_mults tr.
Proof. unfold trial_mults, quiet. induction tr as [|[] tr IH]; cbn; rewrite ?IH; auto. Qed.

Lemma newton_segments v tol s k : forall flat ps tr s' out,
  newton_loop E v tol s k flat ps = (tr, s', out) ->
  exists segs, quiet tr = concat segs /\ length segs <= k /\ Forall is_segment segs.
Proof.
  assert (SEG : forall ps (pr tr1 : list (event F)) d self flat step g0 r,
     quiet pr = [] -> inner E v d self flat step g0 5 (f_one E) = (tr1, r) ->
     is_segment (quiet (EvStep ps :: pr ++ tr1))).
  { intros ps pr tr1 d self flat step g0 r Hp R.
    destruct (inner_trace _ _ _ _ _ _ _ _ _ _ R) as (j & Hj & A & B & C & Q).
    exists ps, (quiet tr1), j. cbn [quiet filter]. fold (quiet (pr ++ tr1)).
    rewrite quiet_app, Hp. repeat split; auto. now rewrite trial_mults_quiet. }
  assert (PR : quiet (if 0 <? v then [@EvPrint F] else []) = []) by (destruct (0 <? v); reflexivity).
  induction k as [|k IH]; intros flat ps tr s' out R; cbn [newton_loop] in R.
  - injection R as <- <- <-. exists []. cbn; auto.
  - nstep R E1 E2 E3.
    + injection R as <- <- <-. eexists [_]. cbn [concat]. rewrite app_nil_r.
      split; [reflexivity|]. split; [cbn; lia|]. constructor; auto. eapply SEG; eauto.
    + destruct (newton_loop E v tol s k nf nps) as [[tr2 s2] out2] eqn:E4. injection R as <- <- <-.
      destruct (IH _ _ _ _ _ E4) as (segs & Q & L & Fa).
      change (EvStep ps :: (((if 0 <? v then [EvPrint] else []) ++ tr1) ++ tr2)) with
        ((EvStep ps :: ((if 0 <? v then [EvPrint] else []) ++ tr1)) ++ tr2).
      eexists (_ :: segs). rewrite quiet_app, Q. cbn [concat]. split; [reflexivity|].
      split; [cbn; lia|]. constructor; auto. eapply SEG; eauto.
    + injection R as <- <- <-. eexists [_]. cbn [concat]. rewrite app_nil_r.
      split; [reflexivity|]. split; [cbn; lia|]. constructor; auto. eapply SEG; eauto.
    + injection R as <- <- <-. eexists [_]. cbn [concat]. rewrite app_nil_r.
      split; [reflexivity|]. split; [cbn; lia|]. constructor; auto. eapply SEG; eauto.
    + injection R as <- <- <-. eexists [_]. cbn [concat]. rewrite app_nil_r.
      split; [reflexivity|]. split; [cbn; lia|]. constructor; auto. eapply SEG; eauto.
    + injection R as <- <- <-. exists [[EvStep ps]]. cbn. split; auto. split; [lia|].
      constructor; auto. exists ps, [], 0. cbn; auto using Nat.le_0_l.
Qed.

(** verbosity *)
Lemma newton_verbose v w tol s k : forall flat ps tr s' out,
  newton_loop E v tol s k flat ps = (tr, s', out) ->
  exists tr', newton_loop E w tol s k flat ps = (tr', s', out) /\ quiet tr' = quiet tr.
Proof.
  induction k as [|k IH]; intros flat ps tr s' out R; cbn [newton_loop] in *.
  - injection R as <- <- <-. eauto.
  - destruct (newton_step E (s_data s) ps) as [[[[step g0] grad] hess]|err] eqn:E1.
    2:{ injection R as <- <- <-. eauto. }
    destruct (inner_verbose v w (s_data s) (s_params s) flat step g0 5 (f_one E)) as [V1 V2].
    destruct (inner E v (s_data s) (s_params s) flat step g0 5 (f_one E)) as [tr1 r1].
    destruct (inner E w (s_data s) (s_params s) flat step g0 5 (f_one E)) as [tr2 r2].
    cbn [fst snd] in V1, V2. subst r2.
    assert (Q : quiet (EvStep ps :: (if 0 <? w then [EvPrint] else []) ++ tr2) =
                quiet (EvStep ps :: (if 0 <? v then [EvPrint] else []) ++ tr1)).
    { unfold quiet in *. destruct (0 <? w), (0 <? v); cbn; now rewrite V2. }
    destruct r1 as [nf nps g| |e1]; try (injection R as <- <- <-; eauto; fail).
    destruct (criterion E g0 g tol) as [[]|]; try (injection R as <- <- <-; eauto; fail).
    destruct (newton_loop E v tol s k nf nps) as [[trv sv] ov] eqn:Ev. injection R as <- <- <-.
    destruct (IH _ _ _ _ _ Ev) as (tr' & -> & Q'). eexists; split; [reflexivity|].
    rewrite !quiet_app. rewrite (app_comm_cons _ trv), quiet_app, Q, Q'. reflexivity.
Qed.

(** *** Broyden *)
Lemma broyden_success v tol i1 s k : forall J g grad flat tr s' b,
  broyden_loop E v tol i1 s k J g grad flat = (tr, s', Ok b) ->
  b = true /\ s_conv s' = true /\ v = 0 /\ s_data s' = s_data s /\
  exists nf prev ng J', reshape_params (s_params s) nf = Ok (s_params s') /\
    g_at E (s_data s) (s_params s') = Ok ng /\ criterion E prev ng tol = Ok true /\
    sp_pinvh E J' = Ok (match s_hess s' with Some h => h | None => J' end) /\ s_hess s' <> None /\
    (prev = g \/ exists fx x, reshape_params (s_params s) fx = Ok x /\ g_at E (s_data s) x = Ok prev).
Proof.
  induction k as [|k IH]; intros J g grad flat tr s' b R; cbn [broyden_loop] in R; [discriminate|].
  destruct (rbind (m_dot E J grad) _) as [[[step nf] nps]|] eqn:E1; [|discriminate].
  assert (RS : reshape_params (s_params s) nf = Ok nps).
  { destruct (m_dot E J grad); cbn in E1; [|discriminate].
    destruct (v_iadd _ _ _); cbn in E1; [|discriminate].
    destruct (reshape_params (s_params s) _) eqn:X; cbn in E1; [|discriminate].
    injection E1 as <- <- <-. exact X. }
  destruct (g_at E (s_data s) nps) as [ng|] eqn:E2; [|discriminate].
  destruct (0 <? v) eqn:Ev; [discriminate|].
  apply Nat.ltb_ge in Ev.
  destruct (criterion E g ng tol) as [[]|] eqn:E3; try discriminate.
  - destruct (sp_pinvh E J) as [h|] eqn:E4; [|discriminate]. injection R as <- <- <-. cbn.
    repeat split; auto; try lia. exists nf, g, ng, J. repeat split; auto. discriminate.
  - destruct (rbind (model_call E nps) _) as [[ngrad J']|]; [|discriminate].
    destruct (broyden_loop E v tol i1 s k J' ng ngrad nf) as [[tr2 s2] out2] eqn:E4.
    injection R as <- <- ->.
    destruct (IH _ _ _ _ _ _ _ E4) as (-> & A & B & C & nf' & pv & ng' & J2 & P1 & P2 & P3 & P4 & P5 & P6).
    repeat split; auto. exists nf', pv, ng', J2. repeat split; auto. destruct P6 as [->|P6]; eauto.
Qed.

Lemma broyden_raise v tol i1 s k : forall J g grad flat tr s' e,
  broyden_loop E v tol i1 s k J g grad flat = (tr, s', Raise e) ->
  s_hess s' = s_hess s /\ s_data s' = s_data s /\
  (s_params s' = s_params s \/ exists J', sp_pinvh E J' = Raise e).
Proof.
  induction k as [|k IH]; intros J g grad flat tr s' e R; cbn [broyden_loop] in R.
  - injection R as <- <- <-; cbn; auto.
  - destruct (rbind (m_dot E J grad) _) as [[[step nf] nps]|]; [|injection R as <- <- <-; auto].
    destruct (g_at E (s_data s) nps) as [ng|]; [|injection R as <- <- <-; auto].
    destruct (0 <? v) eqn:Ev; [injection R as <- <- <-; auto|].
    destruct (criterion E g ng tol) as [[]|]; [| |injection R as <- <- <-; auto].
    + destruct (sp_pinvh E J) as [h|] eqn:E4; [discriminate|]. injection R as <- <- <-. cbn. eauto.
    + destruct (rbind (model_call E nps) _) as [[ngrad J']|]; [|injection R as <- <- <-; auto].
      destruct (broyden_loop E v tol i1 s k J' ng ngrad nf) as [[tr2 s2] out2] eqn:E4.
      injection R as <- <- ->. eauto.
Qed.

Lemma broyden_work v tol i1 s k : forall J g grad flat tr s' out,
  broyden_loop E v tol i1 s k J g grad flat = (tr, s', out) ->
  count_trials tr <= k /\ count_steps tr = 0.
Proof.
  unfold count_trials, count_steps.
  induction k as [|k IH]; intros J g grad flat tr s' e R; cbn [broyden_loop] in R.
  - injection R as <- <- <-; cbn; auto.
  - destruct (rbind (m_dot E J grad) _) as [[[step nf] nps]|]; [|injection R as <- <- <-; cbn; split; auto; lia].
    destruct (g_at E (s_data s) nps) as [ng|]; [|injection R as <- <- <-; cbn; split; auto; lia].
    destruct (0 <? v) eqn:Ev; [injection R as <- <- <-; cbn; split; auto; lia|].
    destruct (criterion E g ng tol) as [[]|]; [| |injection R as <- <- <-; cbn; split; auto; lia].
    + destruct (sp_pinvh E J) as [h|] eqn:E4; injection R as <- <- <-; cbn; split; auto; lia.
    + destruct (rbind (model_call E nps) _) as [[ngrad J']|]; [|injection R as <- <- <-; cbn; split; auto; lia].
      destruct (broyden_loop E v tol i1 s k J' ng ngrad nf) as [[tr2 s2] out2] eqn:E4.
      injection R as <- <- ->. destruct (IH _ _ _ _ _ _ _ E4). cbn. split; auto; lia.
Qed.

Lemma broyden_verbose_fails v tol i1 s k : 0 < v -> forall J g grad flat tr s' b,
  broyden_loop E 0 tol i1 s k J g grad flat = (tr, s', Ok b) ->
  exists tr', broyden_loop E v tol i1 s k J g grad flat = (tr', s, Raise NameError).
Proof.
  intros Hv. assert (Ev : (0 <? v) = true) by now apply Nat.ltb_lt.
  destruct k as [|k]; intros J g grad flat tr s' b R; cbn [broyden_loop] in *; [discriminate|].
  destruct (rbind (m_dot E J grad) _) as [[[step nf] nps]|]; [|discriminate].
  destruct (g_at E (s_data s) nps) as [ng|]; [|discriminate].
  rewrite Ev. eauto.
Qed.

(** *** fit *)
Lemma load_data_frame s kw : forall s1 r, load_data s kw = (s1, r) ->
  s_params s1 = s_params s /\ s_hess s1 = s_hess s /\ s_conv s1 = s_conv s.
Proof.
  revert s. induction kw as [|[k [t|e]] kw IH]; intros s s1 r R; cbn in R.
  - injection R as <- <-; auto.
  - destruct (IH _ _ _ R) as (A & B & C). cbn in *. auto.
  - injection R as <- <-; auto.
Qed.

Definition is_newton (m : string) : Prop := lower m = "newton"%string.
Definition is_broyden (m : string) : Prop := lower m = "broyden"%string.

(** Unfolding of [fit] by cases. *)
Lemma fit_cases tol ms v m kw s tr s' out :
  fit E tol ms v m kw s = (tr, s', out) ->
  (exists e, load_data s kw = (s', Raise e) /\ out = Raise e /\ tr = []) \/
  exists s1 r, load_data s kw = (s1, Ok r) /\
   ((s_params s1 = [] /\ s' = s1 /\ out = Raise ValueError /\ tr = []) \/
    (s_params s1 <> [] /\
     let flat := free_concat (s_params s1) in
     ((is_newton m /\ newton_loop E v tol s1 (Z.to_nat ms) flat (s_params s1) = (tr, s', out)) \/
      (~ is_newton m /\ is_broyden m /\ broyden E v tol s1 (Z.to_nat ms) flat = (tr, s', out)) \/
      (~ is_newton m /\ ~ is_broyden m /\ s' = s1 /\ out = Raise ValueError /\ tr = [])))).
Proof.
  unfold fit. destruct (load_data s kw) as [s1 [r|e]] eqn:L; intros R.
  2:{ injection R as <- <- <-. left. eauto. }
  right. exists s1, r. split; auto.
  unfold ParamModel.flat_params in R. destruct (s_params s1) as [|p ps] eqn:Ep.
  { cbn in R. injection R as <- <- <-. left. auto. }
  right. split; [discriminate|]. cbv zeta. cbn [map np_concatenate] in R.
  change (concat (compressed p :: map compressed ps)) with (free_concat (p :: ps)) in R.
  unfold is_newton, is_broyden.
  destruct (String.eqb_spec (lower m) "newton") as [->|N1]; [left; auto|].
  destruct (String.eqb_spec (lower m) "broyden") as [E2|N2].
  - right; left. auto.
  - right; right. injection R as <- <- <-. auto.
Qed.

Lemma broyden_try_inv v tol s k g flat tr s' out :
  broyden_try E v tol s k g flat = (tr, s', out) ->
  (exists e, out = Raise e /\ s_params s' = s_params s /\ s_data s' = s_data s /\ tr = []) \/
  exists s1 i1 J grad, s_params s1 = s_params s /\ s_data s1 = s_data s /\ s_conv s1 = s_conv s /\
    broyden_loop E v tol i1 s1 k J g grad flat = (tr, s', out).
Proof.
  unfold broyden_try. intros R.
  destruct (rbind (model_eval E (s_params s)) _) as [[[[y der] hess] grad]|]; [|injection R as <- <- <-; left; eauto].
  set (reuse := _ && _) in R.
  assert (S1 : forall s1, (if reuse then Ok s else
     let! h := flat_hess E (s_data s) (s_params s) y der hess in Ok (set_hess s h)) = Ok s1 ->
     s_params s1 = s_params s /\ s_data s1 = s_data s /\ s_conv s1 = s_conv s).
  { intros s1. destruct reuse; [intros [= <-]; auto|].
    destruct (flat_hess E _ _ _ _ _); cbn; [|discriminate]. intros [= <-]. cbn; auto. }
  destruct (if reuse then _ else _) as [s1|]; [|injection R as <- <- <-; left; eauto].
  destruct (S1 s1 eq_refl) as (A & B & C). clear S1.
  destruct (s_hess s1) as [h|]; [|injection R as <- <- <-; left; eauto].
  destruct (rbind (sp_pinvh E h) _) as [[J i1]|]; [|injection R as <- <- <-; left; eauto].
  right. exists s1, i1, J, grad. auto.
Qed.

Lemma broyden_inv v tol s k flat tr s' out :
  broyden E v tol s k flat = (tr, s', out) ->
  (exists e, g_at E (s_data s) (s_params s) = Raise e /\ out = Raise e /\ s' = s /\ tr = []) \/
  exists g tr0 s0, g_at E (s_data s) (s_params s) = Ok g /\
    broyden_try E v tol s k g flat = (tr0, s0, out) /\
    tr = (if 0 <? v then [EvPrint] else []) ++ tr0 /\
    ((exists b, out = Ok b /\ s' = s0) \/ (exists e, out = Raise e /\ s' = set_conv s0 false)).
Proof.
  unfold broyden. destruct (g_at E (s_data s) (s_params s)) as [g|e] eqn:G; intros R.
  2:{ injection R as <- <- <-. left. eauto. }
  right. destruct (broyden_try E v tol s k g flat) as [[tr0 s0] [b|e]] eqn:B; injection R as <- <- <-;
  exists g, tr0, s0; repeat split; eauto.
Qed.
End Proofs.
