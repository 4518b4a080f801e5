(** Proofs of the statements of Props_Fit.v *)
From Coq Require Import String.
From Verif Require Import Prelude ParamModel ParamProofs ParamSpec FitModel FitSpec FitProofs.

Local Arguments Nat.ltb : simpl never.

Section P.
Context {F M Y D H T : Type}.
Variable E : estimator F M Y D H T.
Implicit Types (s : state F M T).

Lemma C04_p tol ms v m kw s tr s' out :
  Forall param_wf (s_params s) -> fit E tol ms v m kw s = (tr, s', out) ->
  same_frame (s_params s) (s_params s') /\ Forall param_wf (s_params s').
Proof.
  intros Hw R. apply fit_cases in R as [(e & L & _)|(s1 & r & L & R)];
    destruct (load_data_frame _ _ _ _ L) as (P1 & _).
  { rewrite P1. split; auto using same_frame_refl. }
  assert (K : s_params s' = s_params s1 \/ exists nf, reshape_params (s_params s1) nf = Ok (s_params s')).
  { destruct R as [(Z & -> & _)|(Hne & [(_ & R)|[(_ & _ & R)|(_ & _ & -> & _)]])]; auto.
    - destruct out as [b|e].
      + apply newton_success in R as (_ & fx & x & st & g0 & gr & he & nf & mm & g & _ & _ & _ & _ & RS & _).
        right; eauto.
      + apply newton_raise in R as (A & _). auto.
    - apply broyden_inv in R as [(e & _ & _ & -> & _)|(g & tr0 & s0 & _ & R & _ & C)]; auto.
      assert (Sp : s_params s' = s_params s0) by (destruct C as [(? & _ & ->)|(? & _ & ->)]; auto).
      rewrite Sp. apply broyden_try_inv in R as [(e & _ & A & _)|(s2 & i1 & J & gr & A & _ & _ & R)]; auto.
      destruct out as [b|e].
      + apply broyden_success in R as (_ & _ & _ & _ & nf & pv & ng & J' & RS & _). rewrite A in RS. right; eauto.
      + destruct C as [(b & X & _)|_]; [discriminate|]. clear Sp.
        revert R. generalize (free_concat (s_params s1)). intros fl R.
        assert (G : forall k J g gr fl tr s' out, broyden_loop E v tol i1 s2 k J g gr fl = (tr, s', out) ->
           s_params s' = s_params s2 \/ exists nf, reshape_params (s_params s2) nf = Ok (s_params s')).
        { clear. induction k as [|k IH]; intros J g grad fl tr s' out R; cbn [broyden_loop] in R.
          - injection R as <- <- <-; auto.
          - destruct (rbind (m_dot E J grad) _) as [[[step nf] nps]|] eqn:E1; [|injection R as <- <- <-; auto].
            assert (RS : reshape_params (s_params s2) nf = Ok nps).
            { destruct (m_dot E J grad); cbn in E1; [|discriminate].
              destruct (v_iadd _ _ _); cbn in E1; [|discriminate].
              destruct (reshape_params (s_params s2) _) eqn:X; cbn in E1; [|discriminate].
              injection E1 as <- <- <-. exact X. }
            destruct (g_at E (s_data s2) nps) as [ng|]; [|injection R as <- <- <-; auto].
            destruct (0 <? v)%nat; [injection R as <- <- <-; auto|].
            destruct (criterion E g ng tol) as [[]|]; [| |injection R as <- <- <-; auto].
            + destruct (sp_pinvh E J) as [h|]; injection R as <- <- <-; cbn; eauto.
            + destruct (rbind (model_call E nps) _) as [[ngrad J']|]; [|injection R as <- <- <-; auto].
              destruct (broyden_loop E v tol i1 s2 k J' ng ngrad nf) as [[tr2 s3] out2] eqn:E4.
              injection R as <- <- <-. eauto. }
        destruct (G _ _ _ _ _ _ _ _ R) as [B|[nf B]]; rewrite A in B; eauto. }
  destruct K as [->|[nf RS]].
  - rewrite P1. split; auto using same_frame_refl.
  - rewrite P1 in RS. now apply reshape_same_frame in RS.
Qed.

Lemma C05_newton_p tol ms v m kw s tr s' e :
  is_newton m -> fit E tol ms v m kw s = (tr, s', Raise e) ->
  s_params s' = s_params s /\ s_hess s' = s_hess s.
Proof.
  intros Hm R. apply fit_cases in R as [(e' & L & _)|(s1 & r & L & R)];
    destruct (load_data_frame _ _ _ _ L) as (P1 & P2 & _); auto.
  destruct R as [(Z & -> & _)|(Hne & [(_ & R)|[(N & _)|(N & _)]])]; auto; try contradiction.
  apply newton_raise in R as (A & B & _). split; congruence.
Qed.

Lemma C05_any_p tol ms v m kw s tr s' e :
  (forall J, sp_pinvh E J <> Raise e) -> fit E tol ms v m kw s = (tr, s', Raise e) ->
  s_params s' = s_params s.
Proof.
  intros Hp R. apply fit_cases in R as [(e' & L & _)|(s1 & r & L & R)];
    destruct (load_data_frame _ _ _ _ L) as (P1 & P2 & _); auto.
  rewrite <- P1.
  destruct R as [(Z & -> & _)|(Hne & [(_ & R)|[(N & _ & R)|(N & _ & -> & _)]])]; auto.
  - apply newton_raise in R as (A & B & _). auto.
  - apply broyden_inv in R as [(e' & _ & _ & -> & _)|(g & tr0 & s0 & _ & R & _ & C)]; auto.
    destruct C as [(b & X & _)|(e' & _ & ->)]; [discriminate|]. cbn.
    apply broyden_try_inv in R as [(e'' & _ & A & _)|(s2 & i1 & J & gr & A & _ & _ & R)]; auto.
    apply broyden_raise in R as (_ & _ & [B|[J' B]]); [congruence|]. now destruct (Hp J').
Qed.

(** data attributes after a call: exactly the keywords of the call are replaced *)
Lemma loop_data_newton tol s k v : forall flat ps tr s' out,
  newton_loop E v tol s k flat ps = (tr, s', out) -> s_data s' = s_data s.
Proof.
  intros flat ps tr s' [b|e] R.
  - apply newton_success in R as (_ & fx & x & st & g0 & gr & he & nf & mm & g & R). apply R.
  - apply newton_raise in R. apply R.
Qed.

Lemma C06_p tol ms v m kw s tr s' :
  eval_consistent E -> ge_transitive E -> is_newton m ->
  fit E tol ms v m kw s = (tr, s', Ok true) ->
  exists g0 g1, g_at E (s_data s') (s_params s) = Ok g0 /\
    g_at E (s_data s') (s_params s') = Ok g1 /\ f_ge E g1 g0 = true.
Proof.
  intros C Tr Hm R. apply fit_cases in R as [(e' & L & X & _)|(s1 & r & L & R)]; [discriminate|].
  destruct (load_data_frame _ _ _ _ L) as (P1 & P2 & _); auto.
  destruct R as [(Z & -> & X & _)|(Hne & [(_ & R)|[(N & _)|(N & _)]])]; try contradiction; [discriminate|].
  rewrite (loop_data_newton _ _ _ _ _ _ _ _ _ R). rewrite <- P1.
  eapply newton_monotone; eauto.
Qed.

Lemma C07_newton_p tol ms v m kw s tr s' out :
  is_newton m -> fit E tol ms v m kw s = (tr, s', out) ->
  out <> Ok false /\
  exists segs, quiet tr = concat segs /\ length segs <= Z.to_nat ms /\ Forall (is_segment E) segs.
Proof.
  intros Hm R. apply fit_cases in R as [(e' & L & -> & ->)|(s1 & r & L & R)].
  { split; [discriminate|]. exists []. cbn. split; auto. split; auto. apply Nat.le_0_l. }
  destruct R as [(Z & -> & -> & ->)|(Hne & [(_ & R)|[(N & _)|(N & _)]])]; try contradiction.
  { split; [discriminate|]. exists []. cbn. split; auto. split; auto. apply Nat.le_0_l. }
  split.
  - intros ->. apply newton_success in R as [X _]. discriminate.
  - eapply newton_segments; eauto.
Qed.

Lemma C07_broyden_p tol ms v m kw s tr s' out :
  is_broyden m -> fit E tol ms v m kw s = (tr, s', out) ->
  out <> Ok false /\ count_trials tr <= Z.to_nat ms /\ count_steps tr = 0.
Proof.
  intros Hm R. assert (Nn : ~ is_newton m) by (unfold is_newton, is_broyden in *; rewrite Hm; discriminate).
  apply fit_cases in R as [(e' & L & -> & ->)|(s1 & r & L & R)].
  { split; [discriminate|]. cbn. split; auto. apply Nat.le_0_l. }
  destruct R as [(Z & -> & -> & ->)|(Hne & [(N & _)|[(_ & _ & R)|(_ & N & _)]])]; try contradiction.
  { split; [discriminate|]. cbn. split; auto. apply Nat.le_0_l. }
  apply broyden_inv in R as [(e' & _ & -> & -> & ->)|(g & tr0 & s0 & _ & R & -> & C)].
  { split; [discriminate|]. cbn. split; auto. apply Nat.le_0_l. }
  assert (K : count_trials ((if (0 <? v)%nat then [EvPrint] else []) ++ tr0) = count_trials tr0 /\
              count_steps ((if (0 <? v)%nat then [EvPrint] else []) ++ tr0) = count_steps tr0)
    by (unfold count_trials, count_steps; destruct (0 <? v)%nat; auto).
  destruct K as [-> ->].
  apply broyden_try_inv in R as [(e'' & -> & A & _ & ->)|(s2 & i1 & J & gr & A & _ & _ & R)].
  { split; [discriminate|]. cbn. split; auto. apply Nat.le_0_l. }
  split.
  - intros ->. apply broyden_success in R as [X _]. discriminate.
  - eapply broyden_work; eauto.
Qed.

Lemma C07_no_steps_p tol ms v m kw s tr s' out s1 r :
  is_newton m -> (ms <= 0)%Z -> s_params s <> [] -> load_data s kw = (s1, Ok r) ->
  fit E tol ms v m kw s = (tr, s', out) -> out = Raise ConvergenceError /\ tr = [].
Proof.
  intros Hm Hms Hne L R. apply fit_cases in R as [(e' & L' & _)|(s1' & r' & L' & R)].
  { rewrite L in L'. injection L' as _ X. discriminate. }
  rewrite L in L'. injection L' as <- <-.
  destruct (load_data_frame _ _ _ _ L) as (P1 & _).
  destruct R as [(Z & _)|(_ & [(_ & R)|[(N & _)|(N & _)]])]; try contradiction; [congruence|].
  replace (Z.to_nat ms) with 0%nat in R by (destruct ms; cbn; auto; lia).
  cbn in R. injection R as <- <- <-. auto.
Qed.

Lemma C08_conv_error_p tol ms v m kw s tr s' :
  oracles_never_raise E ConvergenceError -> (forall k t, In (k, t) kw -> t <> Raise ConvergenceError) ->
  fit E tol ms v m kw s = (tr, s', Raise ConvergenceError) -> s_conv s' = false.
Proof.
  intros O K R. apply fit_cases in R as [(e' & L & X & _)|(s1 & r & L & R)].
  { exfalso. injection X as <-. clear -L K. revert s L. induction kw as [|[k [t|e]] kw IH]; intros s L; cbn in L.
    - discriminate.
    - eapply IH; eauto. intros; apply (K k0); cbn; auto.
    - injection L as <- ->. eapply K; cbn; eauto. }
  destruct R as [(Z & -> & X & _)|(Hne & [(_ & R)|[(N & _ & R)|(_ & _ & _ & X & _)]])]; try discriminate.
  - eapply newton_conv_error; eauto.
  - apply broyden_inv in R as [(e' & X & Y' & -> & _)|(g & tr0 & s0 & _ & R & _ & C)].
    + exfalso. injection Y' as <-. eapply g_at_exn; eauto.
    + destruct C as [(b & X & _)|(e' & _ & ->)]; [discriminate|reflexivity].
Qed.

Lemma C08_newton_p tol ms v m kw s tr s' out :
  is_newton m -> fit E tol ms v m kw s = (tr, s', out) -> out <> Raise ConvergenceError ->
  s_conv s' = s_conv s.
Proof.
  intros Hm R Nc. apply fit_cases in R as [(e' & L & X & _)|(s1 & r & L & R)];
  destruct (load_data_frame _ _ _ _ L) as (_ & _ & P3); auto.
  destruct R as [(Z & -> & X & _)|(Hne & [(_ & R)|[(N & _)|(N & _)]])]; try contradiction; auto.
  rewrite <- P3. destruct out as [b|e].
  - apply newton_success in R as (_ & fx & x & st & g0 & gr & he & nf & mm & g & R). apply R.
  - eapply newton_other_error; eauto. congruence.
Qed.

Lemma C08_broyden_p tol ms v m kw s tr s' :
  is_broyden m -> fit E tol ms v m kw s = (tr, s', Ok true) -> s_conv s' = true.
Proof.
  intros Hm R. assert (Nn : ~ is_newton m) by (unfold is_newton, is_broyden in *; rewrite Hm; discriminate).
  apply fit_cases in R as [(e' & L & X & _)|(s1 & r & L & R)]; [discriminate|].
  destruct R as [(Z & _ & X & _)|(Hne & [(N & _)|[(_ & _ & R)|(_ & N & _)]])]; try contradiction; [discriminate|].
  apply broyden_inv in R as [(e' & _ & X & _)|(g & tr0 & s0 & _ & R & _ & C)]; [discriminate|].
  destruct C as [(b & _ & ->)|(e' & X & _)]; [|discriminate].
  apply broyden_try_inv in R as [(e'' & X & _)|(s2 & i1 & J & gr & A & _ & _ & R)]; [discriminate|].
  apply broyden_success in R. apply R.
Qed.

Lemma criterion_inv a b t : criterion E a b t = Ok true ->
  exists q, f_div E a b = Ok q /\ f_lt E (f_abs E (f_sub E q (f_one E))) t = true.
Proof. unfold criterion. destruct (f_div E a b) as [q|]; cbn; [|discriminate]. intros [= X]. eauto. Qed.

Lemma C09_newton_p tol ms v m kw s tr s' :
  is_newton m -> fit E tol ms v m kw s = (tr, s', Ok true) ->
  exists prev g q, g_at E (s_data s') (s_params s') = Ok g /\ f_ge E g prev = true /\
    f_div E prev g = Ok q /\ f_lt E (f_abs E (f_sub E q (f_one E))) tol = true /\
    exists x y der hs, model_eval E x = Ok (y, der, hs) /\ objective E (s_data s') x y = Ok prev /\
      (x = s_params s \/ exists flat, reshape_params (s_params s) flat = Ok x).
Proof.
  intros Hm R. apply fit_cases in R as [(e' & L & X & _)|(s1 & r & L & R)]; [discriminate|].
  destruct (load_data_frame _ _ _ _ L) as (P1 & P2 & _); auto.
  destruct R as [(Z & -> & X & _)|(Hne & [(_ & R)|[(N & _)|(N & _)]])]; try contradiction; [discriminate|].
  apply newton_success in R as (_ & fx & x & st & g0 & gr & he & nf & mm & g & Hx & NS & _ & _ & _ & G & GE & CR & _ & _ & Dt).
  destruct (criterion_inv _ _ _ CR) as (q & Q1 & Q2). rewrite Dt.
  exists g0, g, q. repeat split; auto.
  unfold newton_step in NS. destruct (model_eval E x) as [[[y der] hs]|] eqn:X1; cbn in NS; [|discriminate].
  exists x, y, der, hs. split; auto.
  destruct (objective E (s_data s1) x y) eqn:X2; cbn in NS; [|discriminate].
  destruct (flat_grad E _ x y der); cbn in NS; [|discriminate].
  destruct (flat_hess E _ x y der hs); cbn in NS; [|discriminate].
  destruct (np_solve E _ _); cbn in NS; [|discriminate].
  destruct (cut_index _ _); cbn in NS; [|discriminate].
  injection NS as <- <- <- <-. split; auto. rewrite <- P1. destruct Hx as [[_ ->]|Hx]; eauto.
Qed.

Lemma C09_broyden_p tol ms v m kw s tr s' :
  is_broyden m -> fit E tol ms v m kw s = (tr, s', Ok true) ->
  exists prev g q, g_at E (s_data s') (s_params s') = Ok g /\
    f_div E prev g = Ok q /\ f_lt E (f_abs E (f_sub E q (f_one E))) tol = true /\
    exists x, g_at E (s_data s') x = Ok prev /\
      (x = s_params s \/ exists flat, reshape_params (s_params s) flat = Ok x).
Proof.
  intros Hm R. assert (Nn : ~ is_newton m) by (unfold is_newton, is_broyden in *; rewrite Hm; discriminate).
  apply fit_cases in R as [(e' & L & X & _)|(s1 & r & L & R)]; [discriminate|].
  destruct (load_data_frame _ _ _ _ L) as (P1 & P2 & _); auto.
  destruct R as [(Z & _ & X & _)|(Hne & [(N & _)|[(_ & _ & R)|(_ & N & _)]])]; try contradiction; [discriminate|].
  apply broyden_inv in R as [(e' & _ & X & _)|(g & tr0 & s0 & G0 & R & _ & C)]; [discriminate|].
  destruct C as [(b & _ & ->)|(e' & X & _)]; [|discriminate].
  apply broyden_try_inv in R as [(e'' & X & _)|(s2 & i1 & J & gr & A & B & _ & R)]; [discriminate|].
  apply broyden_success in R as (_ & _ & _ & Dt & nf & pv & ng & J' & RS & G & CR & _ & _ & Pv).
  destruct (criterion_inv _ _ _ CR) as (q & Q1 & Q2).
  rewrite Dt. rewrite B in *. rewrite A in *. exists pv, ng, q. repeat split; auto.
  destruct Pv as [->|(fx & x & X1 & X2)].
  - exists (s_params s). rewrite <- P1. auto.
  - exists x. split; auto. right. exists fx. congruence.
Qed.

(** C10 / C12 *)
Lemma cut_index_spec c f : 1 <= f -> cut_index c (f + c) = Ok f.
Proof.
  intros Hf. unfold cut_index. destruct (Nat.eqb_spec (f + c) 0); [lia|]. f_equal.
  replace (- (Z.of_nat c + 1))%Z with ((Z.of_nat f - 1) + (-1) * Z.of_nat (f + c))%Z by lia.
  rewrite Z_mod_plus_full, Z.mod_small by lia. lia.
Qed.
Lemma cut_index_no_free c : 1 <= c -> cut_index c c = Ok c.
Proof.
  intros Hf. unfold cut_index. destruct (Nat.eqb_spec c 0); [lia|]. f_equal.
  replace (- (Z.of_nat c + 1))%Z with ((Z.of_nat c - 1) + (-2) * Z.of_nat c)%Z by lia.
  rewrite Z_mod_plus_full, Z.mod_small by lia. lia.
Qed.

Lemma newton_step_inv d ps step g0 grad hess :
  newton_step E d ps = Ok (step, g0, grad, hess) ->
  exists y der hs full i1, model_eval E ps = Ok (y, der, hs) /\
    objective E d ps y = Ok g0 /\ flat_grad E d ps y der = Ok grad /\
    flat_hess E d ps y der hs = Ok hess /\ np_solve E hess grad = Ok full /\
    cut_index (n_constraints E) (length full) = Ok i1 /\ step = firstn i1 full.
Proof.
  unfold newton_step. intros NS.
  destruct (model_eval E ps) as [[[y der] hs]|] eqn:X1; cbn in NS; [|discriminate].
  destruct (objective E d ps y) eqn:X2; cbn in NS; [|discriminate].
  destruct (flat_grad E d ps y der) eqn:X3; cbn in NS; [|discriminate].
  destruct (flat_hess E d ps y der hs) eqn:X4; cbn in NS; [|discriminate].
  destruct (np_solve E _ _) eqn:X5; cbn in NS; [|discriminate].
  destruct (cut_index _ _) eqn:X6; cbn in NS; [|discriminate].
  injection NS as <- <- <- <-. repeat eexists; eauto.
Qed.

Lemma C12_step_p d ps step g0 grad hess f :
  1 <= f -> newton_step E d ps = Ok (step, g0, grad, hess) ->
  (forall v, np_solve E hess grad = Ok v -> length v = f + n_constraints E) ->
  exists full, np_solve E hess grad = Ok full /\ step = firstn f full /\ length step = f.
Proof.
  intros Hf NS HL. apply newton_step_inv in NS as (y & der & hs & full & i1 & _ & _ & _ & _ & S & C & ->).
  pose proof (HL _ S) as L. rewrite L, cut_index_spec in C by auto. injection C as <-.
  exists full. split; auto. split; auto. rewrite firstn_length. lia.
Qed.

Lemma free_of_reshape (ps : list (param F)) fl qs : Forall param_wf ps -> reshape_params ps fl = Ok qs ->
  free_entries qs = firstn (n_free ps) fl.
Proof.
  intros Hw R. rewrite free_entries_flat, n_free_total.
  now destruct (reshape_params_preserves ps fl qs Hw R) as (_ & _ & _ & X & _).
Qed.

Lemma C10_p tol ms v m kw s tr s' :
  is_newton m -> Forall param_wf (s_params s) -> 1 <= n_free (s_params s) ->
  (forall a b x, np_solve E a b = Ok x -> length x = n_free (s_params s) + n_constraints E) ->
  fit E tol ms v m kw s = (tr, s', Ok true) ->
  exists x step mult y der hs grad hess full,
    (x = s_params s \/ exists fl, reshape_params (s_params s) fl = Ok x) /\
    model_eval E x = Ok (y, der, hs) /\
    flat_grad E (s_data s') x y der = Ok grad /\
    flat_hess E (s_data s') x y der hs = Ok hess /\
    np_solve E hess grad = Ok full /\ step = firstn (n_free (s_params s)) full /\
    s_hess s' = Some hess /\ In mult (multipliers E) /\
    free_entries (s_params s') =
      map (fun '(a, b) => f_sub E a (f_mul E mult b)) (combine (free_entries x) step).
Proof.
  intros Hm Hw Hf HL R. apply fit_cases in R as [(e' & L & X & _)|(s1 & r & L & R)]; [discriminate|].
  destruct (load_data_frame _ _ _ _ L) as (P1 & P2 & _); auto.
  destruct R as [(Z & -> & X & _)|(Hne & [(_ & R)|[(N & _)|(N & _)]])]; try contradiction; [discriminate|].
  apply newton_success in R as (_ & fx & x & st & g0 & gr & he & nf & mm & g & Hx & NS & Hmm & VO & RS & G & GE & CR & HH & _ & Dt).
  destruct (C12_step_p _ _ _ _ _ _ _ Hf NS (HL he gr)) as (full & Sv & Est & Lst).
  apply newton_step_inv in NS as (y & der & hs & full' & i1 & Ev & Ob & Gr & He & Sv' & _ & _).
  rewrite Sv in Sv'. injection Sv' as <-. rewrite Dt. rewrite P1 in *.
  exists x, st, mm, y, der, hs, gr, he, full.
  split. { destruct Hx as [[_ ->]|Hx]; eauto. }
  repeat split; auto.
  assert (Fx : free_entries x = firstn (n_free (s_params s)) fx /\ n_free (s_params s) <= length fx).
  { destruct Hx as [[-> ->]|Hx].
    - rewrite free_entries_flat. unfold free_concat.
      pose proof (concat_compressed_length (s_params s) Hw) as Lc. rewrite <- n_free_total in Lc.
      rewrite <- Lc. split; [|lia]. now rewrite firstn_all.
    - split; [now apply free_of_reshape|]. rewrite n_free_total. now apply reshape_params_inv in Hx. }
  destruct Fx as [Fx Lfx]. rewrite Fx, (free_of_reshape _ _ _ Hw RS).
  set (n := n_free (s_params s)) in *. clear -VO Lst Lfx Hf.
  unfold v_op in VO. rewrite map_length in VO. destruct (Nat.eqb_spec (length fx) (length st)) as [Ef|Nf].
  - injection VO as <-. rewrite Lst in Ef. rewrite <- Ef at 2. rewrite firstn_all.
    rewrite firstn_all2 by (rewrite map_length, combine_length, map_length; lia).
    clear. revert st. induction fx as [|a fx IH]; intros [|b st]; cbn; auto. f_equal. apply IH.
  - destruct st as [|b [|c st]].
    + cbn in Lst. lia.
    + cbn in *. injection VO as <-. rewrite <- Lst in *. destruct fx as [|a fx]; [cbn in Lfx; lia|].
      reflexivity.
    + cbn [map] in VO. destruct fx as [|a [|]]; try discriminate. cbn in *. lia.
Qed.

(** C17 *)
Lemma C17_newton_p tol ms v w m kw s tr s' out :
  is_newton m -> fit E tol ms v m kw s = (tr, s', out) ->
  exists tr', fit E tol ms w m kw s = (tr', s', out) /\ quiet tr' = quiet tr.
Proof.
  intros Hm R. unfold fit in *. destruct (load_data s kw) as [s1 [r|e]]; eauto.
  destruct (ParamModel.flat_params (s_params s1)) as [flat|e]; eauto.
  rewrite Hm in *. rewrite String.eqb_refl in *. eapply newton_verbose; eauto.
Qed.

Lemma C17_broyden_p tol ms v m kw s tr s' b :
  is_broyden m -> 0 < v -> fit E tol ms 0 m kw s = (tr, s', Ok b) ->
  exists tr' s'', fit E tol ms v m kw s = (tr', s'', Raise NameError) /\ s_params s'' = s_params s.
Proof.
  intros Hm Hv R. unfold fit in *. destruct (load_data s kw) as [s1 [r|e]] eqn:L; [|discriminate].
  destruct (load_data_frame _ _ _ _ L) as (P1 & _).
  destruct (ParamModel.flat_params (s_params s1)) as [flat|e]; [|discriminate].
  rewrite Hm in *. cbn [String.eqb Ascii.eqb Bool.eqb] in *.
  unfold broyden in *. destruct (g_at E (s_data s1) (s_params s1)) as [g|e]; [|discriminate].
  destruct (broyden_try E 0 tol s1 (Z.to_nat ms) g flat) as [[tr0 s0] out0] eqn:B.
  destruct out0 as [b0|e0]; [|discriminate].
  unfold broyden_try in *.
  destruct (rbind (model_eval E (s_params s1)) _) as [[[[y der] hess] grad]|]; [|discriminate].
  set (reuse := _ && _) in *.
  assert (S1 : forall s2, (if reuse then Ok s1 else
     let! h := flat_hess E (s_data s1) (s_params s1) y der hess in Ok (set_hess s1 h)) = Ok s2 ->
     s_params s2 = s_params s1).
  { intros s2. destruct reuse; [intros [= <-]; auto|].
    destruct (flat_hess E _ _ _ _ _); cbn; [|discriminate]. intros [= <-]. cbn; auto. }
  destruct (if reuse then _ else _) as [s2|]; [|discriminate].
  specialize (S1 s2 eq_refl).
  destruct (s_hess s2) as [h|]; [|discriminate].
  destruct (rbind (sp_pinvh E h) _) as [[J i1]|]; [|discriminate].
  destruct (broyden_verbose_fails E v _ _ _ _ Hv _ _ _ _ _ _ _ B) as (tr' & ->).
  do 2 eexists. split; [reflexivity|]. cbn. congruence.
Qed.

Lemma C17_broyden_never_p tol ms v m kw s tr s' out :
  is_broyden m -> 0 < v -> fit E tol ms v m kw s = (tr, s', out) -> exists e, out = Raise e.
Proof.
  intros Hm Hv R. assert (Nn : ~ is_newton m) by (unfold is_newton, is_broyden in *; rewrite Hm; discriminate).
  apply fit_cases in R as [(e' & L & X & _)|(s1 & r & L & R)]; [eauto|].
  destruct R as [(Z & _ & X & _)|(Hne & [(N & _)|[(_ & _ & R)|(_ & N & _)]])]; try contradiction; [eauto|].
  apply broyden_inv in R as [(e' & _ & X & _)|(g & tr0 & s0 & G0 & R & _ & C)]; [eauto|].
  destruct C as [(b & -> & ->)|(e' & X & _)]; [|eauto].
  apply broyden_try_inv in R as [(e'' & X & _)|(s2 & i1 & J & gr & A & B & _ & R)]; [discriminate|].
  apply broyden_success in R as (_ & _ & V & _). lia.
Qed.

(** data attributes *)
Lemma load_data_ok kw : forall s, (forall k t, In (k, t) kw -> exists x, t = Ok x) ->
  exists s1, load_data s kw = (s1, Ok tt).
Proof.
  induction kw as [|[k t] kw IH]; intros s Hk; cbn; eauto.
  destruct (Hk k t) as [x ->]; [cbn; auto|]. apply IH. intros; eapply Hk; cbn; eauto.
Qed.
(** The last value given for keyword [k], if any. *)
Definition last_binding (kw : list (string * T)) (k : string) : option T :=
  fold_left (fun acc kt => if String.eqb k (fst kt) then Some (snd kt) else acc) kw None.

Lemma load_data_spec kw : forall s s1 r,
  load_data s (map (fun kt => (fst kt, Ok (snd kt))) kw) = (s1, r) ->
  r = Ok tt /\ forall k, s_data s1 k = match last_binding kw k with Some t => Some t | None => s_data s k end.
Proof.
  assert (G : forall kw k acc, fold_left (fun acc kt => if String.eqb k (fst kt) then Some (snd kt) else acc) kw acc =
     match last_binding kw k with Some t => Some t | None => acc end).
  { clear. unfold last_binding. induction kw as [|[k' t] kw IH]; intros k acc; cbn; auto.
    rewrite (IH k (if String.eqb k k' then Some t else acc)), (IH k (if String.eqb k k' then Some t else None)).
    destruct (fold_left _ kw None); auto. destruct (String.eqb k k'); auto. }
  induction kw as [|[k' t] kw IH]; intros s s1 r L; cbn in L.
  - injection L as <- <-. auto.
  - destruct (IH _ _ _ L) as [-> S]. split; auto. intros k. rewrite S.
    assert (X : last_binding ((k', t) :: kw) k =
      match last_binding kw k with Some t => Some t | None => if String.eqb k k' then Some t else None end)
      by (unfold last_binding at 1; cbn [fold_left fst snd]; apply G).
    rewrite X. destruct (last_binding kw k); auto. cbn.
    destruct (String.eqb k k'); auto.
Qed.

Lemma C05_data_p tol ms v m (kw : list (string * T)) s tr s' out :
  fit E tol ms v m (map (fun kt => (fst kt, Ok (snd kt))) kw) s = (tr, s', out) ->
  forall k, s_data s' k = match last_binding kw k with Some t => Some t | None => s_data s k end.
Proof.
  intros R. apply fit_cases in R as [(e' & L & X & _)|(s1 & r & L & R)].
  { apply load_data_spec in L as [L _]. discriminate. }
  apply load_data_spec in L as [_ S]. intros k. rewrite <- S.
  enough (X : s_data s' = s_data s1) by (now rewrite X).
  destruct R as [(Z & -> & X & _)|(Hne & [(_ & R)|[(_ & _ & R)|(_ & _ & -> & _)]])]; auto.
  - now apply loop_data_newton in R.
  - apply broyden_inv in R as [(e' & _ & _ & -> & _)|(g & tr0 & s0 & _ & R & _ & C)]; auto.
    assert (Sp : s_data s' = s_data s0) by (destruct C as [(? & _ & ->)|(? & _ & ->)]; auto).
    rewrite Sp. apply broyden_try_inv in R as [(e & _ & _ & A & _)|(s2 & i1 & J & gr & _ & A & _ & R)]; auto.
    rewrite <- A. destruct out as [b|e].
    + apply broyden_success in R. apply R.
    + apply broyden_raise in R. apply R.
Qed.
End P.

(** Histories: any number of calls, each with its own estimator (constraints,
    regularizations and the model may be changed between calls). *)
Section Hist.
Context {F M Y D H T : Type}.
Record call := mkCall {
  c_est : estimator F M Y D H T; c_tol : F; c_max : Z; c_verbose : nat; c_method : string;
  c_kw : list (string * res T) }.
Definition run_call (s : state F M T) (c : call) : state F M T :=
  snd (fst (fit (c_est c) (c_tol c) (c_max c) (c_verbose c) (c_method c) (c_kw c) s)).

Lemma same_frame_trans (a b c : list (param F)) : same_frame a b -> same_frame b c -> same_frame a c.
Proof. intros (A1 & A2 & A3 & A4) (B1 & B2 & B3 & B4). repeat split; congruence. Qed.

Lemma C04_history_p calls : forall s : state F M T, Forall param_wf (s_params s) ->
  same_frame (s_params s) (s_params (fold_left run_call calls s)) /\
  Forall param_wf (s_params (fold_left run_call calls s)).
Proof.
  induction calls as [|c calls IH]; intros s Hw; cbn [fold_left].
  - split; auto using same_frame_refl.
  - unfold run_call at 2 4.
    destruct (fit _ _ _ _ _ _ s) as [[tr s'] out] eqn:R. cbn [fst snd].
    destruct (C04_p _ _ _ _ _ _ _ _ _ _ Hw R) as [A B].
    destruct (IH s' B) as [A' B']. split; auto. eapply same_frame_trans; eauto.
Qed.
End Hist.
Arguments call : clear implicits.
