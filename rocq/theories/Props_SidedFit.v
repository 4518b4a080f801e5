(** C92: fitting the two-sided model of the library's own test with Newton's method. *)
From Coq Require Import String.
From Verif Require Import Prelude DenseModel AnalyticSpec DenseProofs NDArray NDProofs TensorModel TensorSpec TensorSum TensorUfunc FuncModel FuncSpec FTModel FTSpec FTPrim FTBuilt LTModel LTPlain LTCell LTEst LTLik LTSpec ETModel ETSpec ParamModel ParamSpec AssembleModel AssembleSpec OTModel OTSpec OTSim2 OTCurve OTThm FitModel FitSpec FitProofs Props_LT Props_OT Props_ET FTTwoSided Props_Sided Props_Sided2 NTModel NTLoop NTSpec NTThm NTFit Props_NT FTTwoSidedFit.
From Coquelicot Require Import Coquelicot.
From Coq Require Import Reals Lra Sorted.
Import List ListNotations.
Open Scope R_scope.
#[local] Existing Instance loose.

(** the entries of a, b and h among the parameters *)
Definition item (q : list (param R)) (p k : nat) : R := nth k (p_vals (nth p q noparam)) 0.
(** the log-likelihood of the data at those entries, as a formula *)
Definition fit_value (gammaln : R -> R) (X W : tensor) m (q : list (param R)) : R :=
  loglikelihood gammaln (fun i j => cell (PT X) [i; j] []) (fun i j => cell (PT W) [i; j] []) m (item q 0) (item q 1) (item q 2 0).
Definition sum_of (q : list (param R)) m : R := Rsum (fun k => item q 0 k + item q 1 k) (seq 0 m).

Lemma three m q : axes q = sides m -> exists a b h, q = [a; b; h] /\ p_shape a = (m :: nil) /\ p_shape b = (m :: nil) /\ p_shape h = [].
Proof. intros E. destruct q as [|a [|b [|h [|]]]]; try discriminate E. injection E as Ea Eb Eh. exists a, b, h. auto. Qed.
Lemma entry_vec p m k : p_shape p = (m :: nil) -> (k < m)%nat -> pentry (arr_of p) (k :: nil) = nth k (p_vals p) 0.
Proof.
  intros E Hk. rewrite pentry_arr by (rewrite E; apply In_indices; now repeat constructor). rewrite E. cbn [ravel]. f_equal. cbn. lia.
Qed.
Lemma entry_num p : p_shape p = [] -> pentry (arr_of p) [] = nth 0 (p_vals p) 0.
Proof. intros E. rewrite pentry_arr by (rewrite E; now left). rewrite E. reflexivity. Qed.
Theorem C92_objective : forall m g d X W q, (1 <= m)%nat -> d "X"%string = Some X -> d "N"%string = Some W -> params_ok q -> axes q = sides m ->
  goal (sided_mle m g) d ([m; m]%nat, []) [] q = fit_value g X W m q.
Proof.
  intros m g d X W q Hm EX EW PO Ax. pose proof (params_are q PO) as A. rewrite Ax in A.
  destruct (three m q Ax) as (a & b & h & -> & Ea & Eb & Eh).
  unfold goal, penalized. rewrite Rsum_nil, Rminus_0_r. cbn [ml_class ml_model sided_mle]. rewrite two_sidedo_f. unfold log_likelihood, data. rewrite EX, EW. cbv zeta.
  rewrite over_pairs. unfold fit_value, loglikelihood. apply pairs_ext. intros i j Hi Hj.
  assert (F : fitted two_sided (map arr_of [a; b; h]) [i; j] [] = ln (scored (item [a; b; h] 0) (item [a; b; h] 1) (item [a; b; h] 2 0) i j + conceded (item [a; b; h] 0) (item [a; b; h] 1) (item [a; b; h] 2 0) i j)).
  { unfold fitted. rewrite (C91_value_any m _ i j Hm A Hi Hj). cbv zeta. unfold scored, conceded, item. cbn [map nth]. now rewrite !(entry_vec a m), !(entry_vec b m), entry_num by assumption. }
  rewrite F, exp_ln; [reflexivity|]. unfold scored, conceded. apply Rplus_lt_0_compat; apply exp_pos.
Qed.
Print Assumptions C92_objective.
Theorem C92_constraint_value : forall m q, (1 <= m)%nat -> params_ok q -> axes q = sides m -> con_value (sum_ab m) q = sum_of q m.
Proof.
  intros m q Hm PO Ax. destruct (three m q Ax) as (a & b & h & -> & Ea & Eb & Eh).
  unfold con_value, term_at, sum_ab, sum_of. cbn [tm_map tm_val]. unfold over_params. change (length (sub_axes [0; 1]%nat (sides m))) with 2%nat. cbn [seq]. rewrite !Rsum_cons, Rsum_nil.
  change (flat (nth 0 (sub_axes [0; 1]%nat (sides m)) ([], []))) with (m :: nil). change (flat (nth 1 (sub_axes [0; 1]%nat (sides m)) ([], []))) with (m :: nil).
  rewrite !Rsum_indices_cons. rewrite Rplus_0_r, <- Rsum_plus. apply (Rsum_ext _ _ (seq 0 m)). intros k Hk. apply in_seq in Hk. cbn [indices]. rewrite !Rsum_cons, !Rsum_nil.
  unfold par_entry, sub_args, sel_at, item. cbn [map nth]. rewrite (entry_vec a m), (entry_vec b m) by (assumption || lia). ring.
Qed.
Print Assumptions C92_constraint_value.
(** eval returns the value, the gradients and the Hessians *)
Theorem C92_eval : forall m ps, (1 <= m)%nat -> are_pars (sides m) ps -> eval_agrees (sides m) ([m; m]%nat, []) two_sidedo ps.
Proof. intros m ps Hm A. exact (C79_eval_agrees _ _ _ _ _ _ _ (two_sidedo_built m Hm) ps A A). Qed.
Print Assumptions C92_eval.
Lemma sum_ab_affine m : affine_term (sides m) (sum_ab m).
Proof. apply (C81_linear (sides m) [0; 1]%nat [1; 1]). repeat constructor. Qed.
(** a fit that returns *)
Theorem C92_fit : forall m g la tol max_steps verbose method kw s s' tr X W, (1 <= m)%nat ->
  lower method = "newton"%string -> ml_fit (sided_mle m g) la tol max_steps verbose method kw s = (tr, s', Ok true) ->
  params_ok (s_params s) -> axes (s_params s) = sides m -> (1 <= n_free (s_params s))%nat ->
  s_data s' "X"%string = Some X -> s_data s' "N"%string = Some W -> is_data ([m; m]%nat, []) (PT X) -> is_data ([m; m]%nat, []) (PT W) ->
  (forall A b x, la_solve la A b = Ok x -> solves A x b) -> 0 < pairs m (fun i j => cell (PT W) [i; j] []) ->
  let start := s_params s in let final := s_params s' in
  same_frame start final /\
  fit_value g X W m start <= fit_value g X W m final /\
  (exists r, 0 <= r <= 15 / 16 /\ sum_of final m = r * sum_of start m) /\
  exists x mult G H step, same_frame start x /\ In mult [1; 1 / 2; 1 / 4; 1 / 8; 1 / 16] /\
    newton_system (goal (sided_mle m g) (s_data s') ([m; m]%nat, []) []) (sum_ab m :: nil) x G H /\ s_hess s' = Some H /\ solves H step G /\ moved_by mult step x final /\
    fit_value g X W m x <= fit_value g X W m final /\ fit_value g X W m final <> 0 /\ Rabs (fit_value g X W m x / fit_value g X W m final - 1) < tol.
Proof.
  intros m g la tol ms v method kw s s' tr X W Hm Me Run PO Ax Hf EX EW DX DW So Tot start final.
  pose proof (sided_problem m Hm g (s_data s') X W EX EW DX DW) as FP. rewrite <- Ax in FP at 1.
  assert (Wf : Forall param_wf (s_params s)) by (eapply Forall_impl; [|exact (proj1 PO)]; now intros p []).
  assert (Vis : forall x, In (EvStep x) tr \/ x = s_params s' -> same_frame (s_params s) x /\ params_ok x /\ axes x = sides m).
  { intros x Hx. destruct (newton_fit (fit_of (sided_mle m g) la) tol ms v method (data_args (class_dim (ml_class (sided_mle m g))) kw) s tr s' Me Wf Hf (ge_real (sided_mle m g) la) Run) as (Vs & _ & F1 & F2 & _).
    assert (Fr : same_frame start x /\ Forall param_wf x) by (destruct Hx as [Hx| ->]; auto). destruct Fr as [Fr Wx]. split; [exact Fr|]. split; [eapply frame_ok; eauto|]. rewrite <- Ax. now apply frame_axes. }
  assert (Dom : forall x, In (EvStep x) tr \/ x = s_params s' -> side_arrays m (map arr_of x)) by (intros x Hx; destruct (Vis x Hx) as (_ & P & A); now apply params_side).
  assert (Tt : 0 < total (s_data s') ([m; m]%nat, [])) by (unfold total, data; rewrite EW, over_pairs; exact Tot).
  destruct (C80_newton_fit _ _ _ _ _ _ _ _ _ _ _ _ _ _ Me Run PO Hf FP Dom So Tt) as (Fr & Le & x & mult & G & H & step & Hx & Fx & Mu & NS & EH & Sv & Mv & Le2 & Nz & Tl).
  destruct (C81_constraints _ _ _ _ _ _ _ _ _ _ _ _ _ _ Me Run PO Hf FP Dom So Tt (sum_ab m) (or_introl eq_refl)) as (r & Hr & Er); [rewrite Ax; apply sum_ab_affine|].
  destruct (Vis _ (or_intror eq_refl)) as (_ & POf & Axf). destruct (Vis x (or_introl Hx)) as (_ & POx & Axx).
  pose proof (fun q P A => C92_objective m g (s_data s') X W q Hm EX EW P A) as Ob. pose proof (Ob _ PO Ax) as O1. pose proof (Ob _ POf Axf) as O2. pose proof (Ob _ POx Axx) as O3. clear Ob.
  rewrite O1, O2 in Le. rewrite O3, O2 in Le2, Tl. rewrite O2 in Nz.
  rewrite (C92_constraint_value m (s_params s') Hm POf Axf), (C92_constraint_value m (s_params s) Hm PO Ax) in Er.
  split; [exact Fr|]. split; [exact Le|]. split; [exists r; auto|]. exists x, mult, G, H, step. auto 12.
Qed.
Print Assumptions C92_fit.
