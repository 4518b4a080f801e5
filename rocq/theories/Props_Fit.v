(** Properties C04-C10, C12, C17 of [fit].  Statements only (proofs in
    FitPropProofs.v; vocabulary in FitSpec.v, ParamSpec.v).  In every theorem
    the estimator [E] (number type, model, objective, gradient, Hessian,
    linear algebra) is arbitrary and may raise anything anywhere. *)
From Coq Require Import String QArith.
From Verif Require Import Prelude ParamModel ParamProofs ParamSpec FitModel FitSpec FitProofs FitPropProofs FitExamples.
Local Open Scope nat_scope.

(** C04: whatever happens (success or exception). *)
Theorem C04_fit_keeps_fixed_entries :
  forall F M Y D H T (E : estimator F M Y D H T) tol ms v m kw s tr s' out,
  Forall param_wf (s_params s) -> fit E tol ms v m kw s = (tr, s', out) ->
  same_frame (s_params s) (s_params s') /\ Forall param_wf (s_params s').
Proof. exact @C04_p. Qed.
Print Assumptions C04_fit_keeps_fixed_entries.
(** ... and along any history of calls. *)
Theorem C04_any_history_keeps_fixed_entries :
  forall F M Y D H T (calls : list (call F M Y D H T)) (s : state F M T),
  Forall param_wf (s_params s) ->
  same_frame (s_params s) (s_params (fold_left run_call calls s)) /\
  Forall param_wf (s_params (fold_left run_call calls s)).
Proof. exact @C04_history_p. Qed.
Print Assumptions C04_any_history_keeps_fixed_entries.
Example C04_nonvacuous : Forall param_wf (s_params toy_state) /\
  map p_vals (s_params (st_of (fit (toy false) 10%Q 20%Z 0 "Newton" [] toy_state))) = [[1]; [7; 8]]%Q.
Proof. split; [exact toy_wf|]. apply toy_newton. Qed.

(** C05 *)
Theorem C05_failed_newton_changes_nothing :
  forall F M Y D H T (E : estimator F M Y D H T) tol ms v m kw s tr s' e,
  lower m = "newton"%string -> fit E tol ms v m kw s = (tr, s', Raise e) ->
  s_params s' = s_params s /\ s_hess s' = s_hess s.
Proof. exact @C05_newton_p. Qed.
Print Assumptions C05_failed_newton_changes_nothing.
Theorem C05_failed_fit_keeps_parameters :
  forall F M Y D H T (E : estimator F M Y D H T) tol ms v m kw s tr s' e,
  (forall J, sp_pinvh E J <> Raise e) -> fit E tol ms v m kw s = (tr, s', Raise e) ->
  s_params s' = s_params s.
Proof. exact @C05_any_p. Qed.
Print Assumptions C05_failed_fit_keeps_parameters.
(** The data attributes named in the call are replaced whatever the outcome. *)
Theorem C05_data_replaced_even_on_failure :
  forall F M Y D H T (E : estimator F M Y D H T) tol ms v m (kw : list (string * T)) s tr s' out,
  fit E tol ms v m (map (fun kt => (fst kt, Ok (snd kt))) kw) s = (tr, s', out) ->
  forall k, s_data s' k = match last_binding kw k with Some t => Some t | None => s_data s k end.
Proof. exact @C05_data_p. Qed.
Print Assumptions C05_data_replaced_even_on_failure.
(** Finding: when the very last pinvh of a Broyden fit raises, the parameters have been replaced. *)
Theorem C05_broyden_last_pinvh_refuted :
  exists (E : estimator Q Q Q unit unit unit) tol ms s tr s' e,
  fit E tol ms 0 "broyden" [] s = (tr, s', Raise e) /\ s_params s' <> s_params s.
Proof.
  exists (toy true), 10%Q, 20%Z, toy_state.
  destruct (fit (toy true) 10%Q 20%Z 0 "broyden" [] toy_state) as [[tr s'] out] eqn:R.
  pose proof toy_broyden_partial_update as [A B]. rewrite R in A, B. cbn in A, B. subst out.
  exists tr, s', LinAlgError. split; [reflexivity|]. intros X. rewrite X in B. discriminate.
Qed.
Print Assumptions C05_broyden_last_pinvh_refuted.
Example C05_nonvacuous :
  out_of (fit (toy false) (1 # 1000000)%Q 3%Z 0 "newton" [] toy_state) = Raise ConvergenceError /\
  (forall J, sp_pinvh (toy false) J <> Raise ConvergenceError).
Proof. split; [apply toy_newton_fail|apply toy_no_conv_raise]. Qed.

(** C06 *)
Theorem C06_newton_never_ends_worse :
  forall F M Y D H T (E : estimator F M Y D H T) tol ms v m kw s tr s',
  (forall ps y der hs, model_eval E ps = Ok (y, der, hs) -> model_call E ps = Ok y) ->
  (forall a b c, f_ge E a b = true -> f_ge E b c = true -> f_ge E a c = true) ->
  lower m = "newton"%string ->
  fit E tol ms v m kw s = (tr, s', Ok true) ->
  exists g0 g1, g_at E (s_data s') (s_params s) = Ok g0 /\
    g_at E (s_data s') (s_params s') = Ok g1 /\ f_ge E g1 g0 = true.
Proof. exact @C06_p. Qed.
Print Assumptions C06_newton_never_ends_worse.
Example C06_nonvacuous :
  eval_consistent (toy false) /\ ge_transitive (toy false) /\
  out_of (fit (toy false) 10%Q 20%Z 0 "Newton" [] toy_state) = Ok true.
Proof. split; [exact toy_consistent|]. split; [exact toy_transitive|]. apply toy_newton. Qed.

(** C07.  The trace (printed lines removed) is a concatenation of at most
    max_steps segments; each is one Newton step followed by at most five trial
    points with multipliers 1, 1/2, 1/4, 1/8, 1/16 in that order; [fit] never
    returns False. *)
Theorem C07_newton_bounded_work :
  forall F M Y D H T (E : estimator F M Y D H T) tol ms v m kw s tr s' out,
  lower m = "newton"%string -> fit E tol ms v m kw s = (tr, s', out) ->
  out <> Ok false /\
  exists segs, quiet tr = concat segs /\ length segs <= Z.to_nat ms /\
    Forall (fun seg => exists ps trials j, seg = EvStep ps :: trials /\
      Forall (fun e => match e with EvTrial _ _ => True | _ => False end) trials /\
      j <= 5 /\ trial_mults trials = firstn j (multipliers E)) segs.
Proof. exact @C07_newton_p. Qed.
Print Assumptions C07_newton_bounded_work.
Theorem C07_multipliers :
  forall F M Y D H T (E : estimator F M Y D H T),
  let h x := f_mul E x (f_half E) in
  multipliers E = [f_one E; h (f_one E); h (h (f_one E)); h (h (h (f_one E))); h (h (h (h (f_one E))))].
Proof. reflexivity. Qed.
Print Assumptions C07_multipliers.
Theorem C07_broyden_bounded_work :
  forall F M Y D H T (E : estimator F M Y D H T) tol ms v m kw s tr s' out,
  lower m = "broyden"%string -> fit E tol ms v m kw s = (tr, s', out) ->
  out <> Ok false /\ count_trials tr <= Z.to_nat ms /\ count_steps tr = 0.
Proof. exact @C07_broyden_p. Qed.
Print Assumptions C07_broyden_bounded_work.
Theorem C07_no_steps :
  forall F M Y D H T (E : estimator F M Y D H T) tol ms v m kw s tr s' out s1 r,
  lower m = "newton"%string -> (ms <= 0)%Z -> s_params s <> [] -> load_data s kw = (s1, Ok r) ->
  fit E tol ms v m kw s = (tr, s', out) -> out = Raise ConvergenceError /\ tr = [].
Proof. exact @C07_no_steps_p. Qed.
Print Assumptions C07_no_steps.
Example C07_nonvacuous :
  let r := fit (toy false) (1 # 1000000)%Q 3%Z 0 "newton" [] toy_state in
  out_of r = Raise ConvergenceError /\ count_steps (fst (fst r)) = 3.
Proof. exact toy_newton_fail. Qed.

(** C08 *)
Theorem C08_convergence_error_clears_flag :
  forall F M Y D H T (E : estimator F M Y D H T) tol ms v m kw s tr s',
  oracles_never_raise E ConvergenceError -> (forall k t, In (k, t) kw -> t <> Raise ConvergenceError) ->
  fit E tol ms v m kw s = (tr, s', Raise ConvergenceError) -> s_conv s' = false.
Proof. exact @C08_conv_error_p. Qed.
Print Assumptions C08_convergence_error_clears_flag.
Theorem C08_broyden_success_sets_flag :
  forall F M Y D H T (E : estimator F M Y D H T) tol ms v m kw s tr s',
  lower m = "broyden"%string -> fit E tol ms v m kw s = (tr, s', Ok true) -> s_conv s' = true.
Proof. exact @C08_broyden_p. Qed.
Print Assumptions C08_broyden_success_sets_flag.
Theorem C08_newton_leaves_flag :
  forall F M Y D H T (E : estimator F M Y D H T) tol ms v m kw s tr s' out,
  lower m = "newton"%string -> fit E tol ms v m kw s = (tr, s', out) -> out <> Raise ConvergenceError ->
  s_conv s' = s_conv s.
Proof. exact @C08_newton_p. Qed.
Print Assumptions C08_newton_leaves_flag.
(** Finding: a first successful Newton fit leaves converged = False. *)
Theorem C08_newton_success_flag_refuted :
  exists (E : estimator Q Q Q unit unit unit) tol s tr s',
  fit E tol 20%Z 0 "newton" [] s = (tr, s', Ok true) /\ s_conv s = false /\ s_conv s' = false.
Proof.
  exists (toy false), 10%Q, toy_state.
  destruct (fit (toy false) 10%Q 20%Z 0 "newton" [] toy_state) as [[tr s'] out] eqn:R.
  exists tr, s'. vm_compute in R. injection R as <- <- <-. repeat split.
Qed.
Print Assumptions C08_newton_success_flag_refuted.
Example C08_nonvacuous : oracles_never_raise (toy false) ConvergenceError /\
  out_of (fit (toy false) (1 # 1000000)%Q 3%Z 0 "newton" [] toy_state) = Raise ConvergenceError /\
  out_of (fit (toy false) 10%Q 20%Z 0 "BROYDEN" [] toy_state) = Ok true.
Proof. split; [exact toy_no_conv_raise|]. split; [apply toy_newton_fail|apply toy_broyden]. Qed.

(** C09 *)
Theorem C09_newton_true_means_criterion :
  forall F M Y D H T (E : estimator F M Y D H T) tol ms v m kw s tr s',
  lower m = "newton"%string -> fit E tol ms v m kw s = (tr, s', Ok true) ->
  exists prev g q, g_at E (s_data s') (s_params s') = Ok g /\ f_ge E g prev = true /\
    f_div E prev g = Ok q /\ f_lt E (f_abs E (f_sub E q (f_one E))) tol = true /\
    exists x y der hs, model_eval E x = Ok (y, der, hs) /\ objective E (s_data s') x y = Ok prev /\
      (x = s_params s \/ exists flat, reshape_params (s_params s) flat = Ok x).
Proof. exact @C09_newton_p. Qed.
Print Assumptions C09_newton_true_means_criterion.
Theorem C09_broyden_true_means_criterion :
  forall F M Y D H T (E : estimator F M Y D H T) tol ms v m kw s tr s',
  lower m = "broyden"%string -> fit E tol ms v m kw s = (tr, s', Ok true) ->
  exists prev g q, g_at E (s_data s') (s_params s') = Ok g /\
    f_div E prev g = Ok q /\ f_lt E (f_abs E (f_sub E q (f_one E))) tol = true /\
    exists x, g_at E (s_data s') x = Ok prev /\
      (x = s_params s \/ exists flat, reshape_params (s_params s) flat = Ok x).
Proof. exact @C09_broyden_p. Qed.
Print Assumptions C09_broyden_true_means_criterion.
(** In particular a success never ends on an objective by which division raises (0.0). *)
Theorem C09_zero_objective_is_never_accepted :
  forall F M Y D H T (E : estimator F M Y D H T) tol ms v m kw s tr s' zero,
  (lower m = "newton" \/ lower m = "broyden")%string ->
  (forall a, f_div E a zero = Raise ZeroDivisionError) ->
  fit E tol ms v m kw s = (tr, s', Ok true) -> g_at E (s_data s') (s_params s') <> Ok zero.
Proof.
  intros F M Y D H T E tol ms v m kw s tr s' zero [Hm|Hm] Hz R X.
  - destruct (C09_newton_p _ _ _ _ _ _ _ _ _ Hm R) as (p & g & q & G & _ & Dv & _).
    rewrite G in X. injection X as ->. rewrite Hz in Dv. discriminate.
  - destruct (C09_broyden_p _ _ _ _ _ _ _ _ _ Hm R) as (p & g & q & G & Dv & _).
    rewrite G in X. injection X as ->. rewrite Hz in Dv. discriminate.
Qed.
Print Assumptions C09_zero_objective_is_never_accepted.
Example C09_nonvacuous :
  out_of (fit (toy false) 10%Q 20%Z 0 "Newton" [] toy_state) = Ok true /\
  out_of (fit (toy false) 10%Q 20%Z 0 "BROYDEN" [] toy_state) = Ok true /\
  (forall a, f_div (toy false) a 0%Q = Raise ZeroDivisionError).
Proof. split; [apply toy_newton|]. split; [apply toy_broyden|]. reflexivity. Qed.

(** C10 *)
Theorem C10_newton_curvature_is_at_last_departure_point :
  forall F M Y D H T (E : estimator F M Y D H T) tol ms v m kw s tr s',
  lower m = "newton"%string -> Forall param_wf (s_params s) -> 1 <= n_free (s_params s) ->
  (forall a b x, np_solve E a b = Ok x -> length x = n_free (s_params s) + n_constraints E) ->
  fit E tol ms v m kw s = (tr, s', Ok true) ->
  exists x step mult y der hs grad hess full,
    (x = s_params s \/ exists fl, reshape_params (s_params s) fl = Ok x) /\
    model_eval E x = Ok (y, der, hs) /\
    flat_grad E (s_data s') x y der = Ok grad /\
    flat_hess E (s_data s') x y der hs = Ok hess /\
    np_solve E hess grad = Ok full /\ step = firstn (n_free (s_params s)) full /\
    s_hess s' = Some hess /\ In mult (multipliers E) /\
    free_entries (s_params s') =
      map (fun '(a, b) => f_sub E a (f_mul E mult b)) (combine (free_entries x) step).
Proof. exact @C10_p. Qed.
Print Assumptions C10_newton_curvature_is_at_last_departure_point.
(** Finding: it is not the curvature at the returned parameters. *)
Theorem C10_curvature_at_returned_point_refuted :
  exists (E : estimator Q Q Q unit unit unit) tol s tr s' y h,
  fit E tol 20%Z 0 "newton" [] s = (tr, s', Ok true) /\
  model_eval E (s_params s') = Ok (y, tt, tt) /\
  flat_hess E (s_data s') (s_params s') y tt tt = Ok h /\ s_hess s' <> Some h.
Proof.
  exists (toy false), 10%Q, toy_state.
  destruct (fit (toy false) 10%Q 20%Z 0 "newton" [] toy_state) as [[tr s'] out] eqn:R.
  exists tr, s', 1%Q, (-48 # 1)%Q. vm_compute in R. injection R as <- <- <-. repeat split. discriminate.
Qed.
Print Assumptions C10_curvature_at_returned_point_refuted.
Example C10_nonvacuous : 1 <= n_free (s_params toy_state) /\
  (forall a b x, np_solve (toy false) a b = Ok x ->
     length x = n_free (s_params toy_state) + n_constraints (toy false)) /\
  out_of (fit (toy false) 10%Q 20%Z 0 "Newton" [] toy_state) = Ok true.
Proof. split; [apply le_n|]. split; [exact toy_solver|]. apply toy_newton. Qed.

(** C12 *)
Theorem C12_cut_is_number_of_free_parameters :
  forall c f : nat, 1 <= f -> cut_index c (f + c) = Ok f.
Proof. exact cut_index_spec. Qed.
Print Assumptions C12_cut_is_number_of_free_parameters.
Theorem C12_no_free_parameter_no_cut :
  forall c : nat, 1 <= c -> cut_index c (0 + c) = Ok c.
Proof. exact cut_index_no_free. Qed.
Print Assumptions C12_no_free_parameter_no_cut.
Theorem C12_newton_step_is_the_free_part_of_the_solution :
  forall F M Y D H T (E : estimator F M Y D H T) d ps step g0 grad hess f,
  1 <= f -> newton_step E d ps = Ok (step, g0, grad, hess) ->
  (forall v, np_solve E hess grad = Ok v -> length v = f + n_constraints E) ->
  exists full, np_solve E hess grad = Ok full /\ step = firstn f full /\ length step = f.
Proof. exact @C12_step_p. Qed.
Print Assumptions C12_newton_step_is_the_free_part_of_the_solution.

(** C17 *)
Theorem C17_newton_verbosity_is_irrelevant :
  forall F M Y D H T (E : estimator F M Y D H T) tol ms v w m kw s tr s' out,
  lower m = "newton"%string -> fit E tol ms v m kw s = (tr, s', out) ->
  exists tr', fit E tol ms w m kw s = (tr', s', out) /\ quiet tr' = quiet tr.
Proof. exact @C17_newton_p. Qed.
Print Assumptions C17_newton_verbosity_is_irrelevant.
(** Finding: with verbose > 0 a Broyden fit that would succeed raises NameError ... *)
Theorem C17_broyden_verbose_breaks_refuted :
  forall F M Y D H T (E : estimator F M Y D H T) tol ms v m kw s tr s' b,
  lower m = "broyden"%string -> 0 < v -> fit E tol ms 0 m kw s = (tr, s', Ok b) ->
  exists tr' s'', fit E tol ms v m kw s = (tr', s'', Raise NameError) /\ s_params s'' = s_params s.
Proof. exact @C17_broyden_p. Qed.
Print Assumptions C17_broyden_verbose_breaks_refuted.
(** ... and no Broyden fit with verbose > 0 ever succeeds. *)
Theorem C17_broyden_verbose_never_succeeds :
  forall F M Y D H T (E : estimator F M Y D H T) tol ms v m kw s tr s' out,
  lower m = "broyden"%string -> 0 < v -> fit E tol ms v m kw s = (tr, s', out) -> exists e, out = Raise e.
Proof. exact @C17_broyden_never_p. Qed.
Print Assumptions C17_broyden_verbose_never_succeeds.
Example C17_nonvacuous : out_of (fit (toy false) 10%Q 20%Z 0 "broyden" [] toy_state) = Ok true /\
  out_of (fit (toy false) 10%Q 20%Z 1 "broyden" [] toy_state) = Raise NameError.
Proof. split; vm_compute; reflexivity. Qed.
