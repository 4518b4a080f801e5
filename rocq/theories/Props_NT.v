(** C80, C81: MaxLike.fit with Newton's method, for objects whose functions compute
    with Tensors. *)
From Coq Require Import String.
From Verif Require Import Prelude DenseModel AnalyticSpec DenseProofs NDArray NDProofs TensorModel TensorSpec TensorUfunc FuncModel FuncSpec FTModel FTSpec FTBuilt LTModel LTSpec ETModel ETSpec ParamModel ParamSpec AssembleModel AssembleSpec OTModel OTSpec FitModel FitSpec FitProofs Props_FT Props_OT Props_ET.
From Coquelicot Require Import Coquelicot.
From Coq Require Import Reals Lra Sorted.
From Verif Require Import NTModel NTSpec NTThm NTFit NTExample.
Import List ListNotations.
Open Scope R_scope.

(** *** C80: what a fit that returned has done.
    maxlike_base.py:94-104, 321-506 with maxlike.py, func_base.py, func_op.py,
    func.py, func_extra.py, tensor.py *)
Theorem C80_newton_fit : forall m la tol max_steps verbose method kw s s' tr dat D cons regs,
  lower method = "newton"%string -> ml_fit m la tol max_steps verbose method kw s = (tr, s', Ok true) ->
  params_ok (s_params s) -> (1 <= n_free (s_params s))%nat ->
  fit_problem (axes (s_params s)) dat D m (s_data s') cons regs ->
  (forall x, In (EvStep x) tr \/ x = s_params s' -> D (map arr_of x)) ->
  (forall A b x, la_solve la A b = Ok x -> solves A x b) -> 0 < total (s_data s') dat ->
  let start := s_params s in let final := s_params s' in let pen := goal m (s_data s') dat regs in
  same_frame start final /\ pen start <= pen final /\
  exists x mult G H step, In (EvStep x) tr /\ same_frame start x /\ In mult [1; 1 / 2; 1 / 4; 1 / 8; 1 / 16] /\
    newton_system pen cons x G H /\ s_hess s' = Some H /\ solves H step G /\ moved_by mult step x final /\
    pen x <= pen final /\ pen final <> 0 /\ Rabs (pen x / pen final - 1) < tol.
Proof. intros m la tol ms v method kw s s' tr dat D cons regs Hm Run PO Hf FP Dom Solve Tot. exact (fit_newton m la tol ms v method kw s s' tr dat D cons regs Hm Run PO Hf FP Dom Solve Tot). Qed.
Print Assumptions C80_newton_fit.
(** one step, at any parameters of the domain: the model's eval, the objective, the
    flat gradient and Hessian do not fail, and are what they should be *)
Theorem C80_newton_step : forall m la d dat D cons regs x, fit_problem (axes x) dat D m d cons regs -> total d dat <> 0 -> params_ok x -> D (map arr_of x) ->
  let pen := goal m d dat regs in
  exists G H, newton_system pen cons x G H /\
    forall step, la_solve la H G = Ok step -> (1 <= length step)%nat ->
      newton_step (fit_of m la) d x = Ok (firstn (Z.to_nat ((- (Z.of_nat (length cons) + 1)) mod Z.of_nat (length step) + 1)) step, pen x / total d dat, G, H).
Proof.
  intros m la d dat D cons regs x FP Tot PO Dx pen. destruct (point_step dat D m la d cons regs (axes x) FP Tot x PO eq_refl Dx) as (y & der & hs & G & H & Ev & Ob & Gr & He & NS).
  exists G, H. split; [exact NS|]. intros step Sv L. unfold newton_step. rewrite Ev. cbn [rbind]. rewrite Ob. cbn [rbind]. rewrite Gr. cbn [rbind]. rewrite He. cbn [rbind].
  change (np_solve (fit_of m la) H G) with (la_solve la H G). rewrite Sv. cbn [rbind]. unfold cut_index. destruct (Nat.eqb_spec (length step) 0) as [Z|_]; [lia|]. cbn [rbind].
  replace (n_constraints (fit_of m la)) with (length cons); [reflexivity|]. cbn. rewrite (fp_con _ _ _ _ _ _ _ FP). now rewrite map_length.
Qed.
Print Assumptions C80_newton_step.

(** *** C81: constraints that are affine functions of the parameters, as Linear *)
Theorem C81_constraints : forall m la tol max_steps verbose method kw s s' tr dat D cons regs,
  lower method = "newton"%string -> ml_fit m la tol max_steps verbose method kw s = (tr, s', Ok true) ->
  params_ok (s_params s) -> (1 <= n_free (s_params s))%nat ->
  fit_problem (axes (s_params s)) dat D m (s_data s') cons regs ->
  (forall x, In (EvStep x) tr \/ x = s_params s' -> D (map arr_of x)) ->
  (forall A b x, la_solve la A b = Ok x -> solves A x b) -> 0 < total (s_data s') dat ->
  forall c, In c cons -> affine_term (axes (s_params s)) c ->
  exists r, 0 <= r <= 15 / 16 /\ con_value c (s_params s') = r * con_value c (s_params s).
Proof. intros m la tol ms v method kw s s' tr dat D cons regs Hm Run PO Hf FP Dom Solve Tot. exact (fit_constraints m la tol ms v method kw s s' tr dat D cons regs Hm Run PO Hf FP Dom Solve Tot). Qed.
Print Assumptions C81_constraints.
(** each step multiplies the value of such a constraint by 1 - mult: after a full step it is satisfied *)
Theorem C81_step : forall f cons x q G H step mult c, params_ok x -> params_ok q -> newton_system f cons x G H -> solves H step G -> moved_by mult step x q ->
  In c cons -> affine_term (axes x) c -> con_value c q = (1 - mult) * con_value c x.
Proof. intros f cons x q G H step mult c PO POq NS So Mv Hc Af. apply In_nth_error in Hc as (k & Ek). exact (con_step f cons x G H step mult q (axes x) k c PO POq eq_refl NS So Mv Ek Af). Qed.
Print Assumptions C81_step.
(** Linear constraints are of this kind *)
Lemma Rsum_pick (F : nat -> R) n k : (k < n)%nat -> Rsum (fun i => if Nat.eqb k i then F i else 0) (seq 0 n) = F k.
Proof.
  intros Hk. replace (seq 0 n) with (seq 0 k ++ k :: seq (Datatypes.S k) (n - Datatypes.S k)).
  2:{ replace n with (k + S (n - S k))%nat at 2 by lia. rewrite seq_app. cbn [seq Nat.add]. reflexivity. }
  unfold Rsum. rewrite map_app, fold_right_app. cbn [map fold_right]. rewrite Nat.eqb_refl.
  assert (Z : forall l, ~ In k l -> forall z, fold_right Rplus z (map (fun i => if Nat.eqb k i then F i else 0) l) = z).
  { induction l as [|j l IH]; intros Hl z; [reflexivity|]. cbn [map fold_right]. rewrite IH by (intros Q; apply Hl; now right). destruct (Nat.eqb_spec k j) as [E|_]; [exfalso; apply Hl; left; congruence|ring]. }
  rewrite !Z; [ring| |]; rewrite in_seq; lia.
Qed.
Theorem C81_linear : forall ss ks ws dom der, Forall (fun k => k < length ss)%nat ks ->
  affine_term ss (mkTerm ks (t_Linear ws) dom (fun ps => over_params (sub_axes ks ss) (fun i x => nth i ws 0 * par_entry ps i x)) der).
Proof.
  intros ss ks ws dom der Hk. exists 0, (fun i _ => Rsum (fun j => if Nat.eqb (nth j ks 0%nat) i then nth j ws 0 else 0) (seq 0 (length ks))).
  intros ps _ _. rewrite Rplus_0_l. unfold term_at. cbn [tm_map tm_val].
  set (S := fun i => Rsum (fun x => par_entry ps i x) (indices (flat (nth i ss ([], []))))).
  transitivity (Rsum (fun j => nth j ws 0 * S (nth j ks 0%nat)) (seq 0 (length ks))).
  - unfold over_params, sub_axes, sel_at. rewrite map_length. apply Rsum_ext. intros j Hj. apply in_seq in Hj. unfold S. rewrite <- Rsum_scal.
    rewrite (nth_indep _ ([], []) (nth 0 ss ([], []))) by (rewrite map_length; lia). rewrite (map_nth (fun k => nth k ss ([], []))).
    apply Rsum_ext. intros x _. f_equal. unfold par_entry, sub_args, sel_at. f_equal. rewrite (nth_indep _ (PNum 0) (nth 0 ps (PNum 0))) by (rewrite map_length; lia). now rewrite (map_nth (fun k => nth k ps (PNum 0))).
  - unfold over_params. transitivity (Rsum (fun i => Rsum (fun j => (if Nat.eqb (nth j ks 0%nat) i then nth j ws 0 else 0) * S i) (seq 0 (length ks))) (seq 0 (length ss))).
    + rewrite Rsum_swap. apply Rsum_ext. intros j Hj. apply in_seq in Hj. rewrite Forall_forall in Hk. assert (Hl : (nth j ks 0 < length ss)%nat) by (apply Hk, nth_In; lia).
      rewrite <- (Rsum_pick (fun i => nth j ws 0 * S i) (length ss) (nth j ks 0%nat) Hl). apply Rsum_ext. intros i _. destruct (Nat.eqb _ _); ring.
    + apply Rsum_ext. intros i _. rewrite Rsum_scal_r. unfold S. now rewrite <- Rsum_scal.
Qed.
Print Assumptions C81_linear.
(** finding: a fit never succeeds when it starts from the maximum of the penalized
    likelihood without constraints, say from an earlier fit, and a linear constraint
    does not hold there: no step is accepted, maxlike_base.py:486-501 *)
Theorem C81_unconstrained_start_refuted : forall m la tol max_steps verbose method kw s s' tr out dat D cons regs c,
  lower method = "newton"%string -> ml_fit m la tol max_steps verbose method kw s = (tr, s', out) ->
  params_ok (s_params s) -> (1 <= n_free (s_params s))%nat ->
  fit_problem (axes (s_params s)) dat D m (s_data s') cons regs ->
  (forall x, In (EvStep x) tr \/ x = s_params s' -> D (map arr_of x)) ->
  (forall A b x, la_solve la A b = Ok x -> solves A x b) -> 0 < total (s_data s') dat ->
  In c cons -> affine_term (axes (s_params s)) c -> con_value c (s_params s) <> 0 ->
  let pen := goal m (s_data s') dat regs in
  (forall q, params_ok q -> same_frame (s_params s) q -> pen (s_params s) <= pen q -> q = s_params s) ->
  out <> Ok true.
Proof.
  intros m la tol ms v method kw s s' tr out dat D cons regs c Hm Run PO Hf FP Dom Solve Tot Hc Af Nz pen Max E. subst out.
  destruct (fit_newton m la tol ms v method kw s s' tr dat D cons regs Hm Run PO Hf FP Dom Solve Tot) as (Fr & Le & _).
  destruct (fit_constraints m la tol ms v method kw s s' tr dat D cons regs Hm Run PO Hf FP Dom Solve Tot c Hc Af) as (r & Hr & Er).
  destruct (visited m la tol ms v method kw s s' tr D Hm Run PO Hf Dom (s_params s') (or_intror eq_refl)) as (_ & POf & _).
  rewrite (Max (s_params s') POf Fr Le) in Er. apply Nz. nra.
Qed.
Print Assumptions C81_unconstrained_start_refuted.

(** *** Instances *)
(** the objects of the examples of C78 and C79, with a quadratic penalty *)
Example C80_problem : forall g X N d r0 r1 c0 c1 c2, d "N"%string = data2 X N "N" -> d "X"%string = data2 X N "X" ->
  fit_problem (axes (effects r0 r1 c0 c1 c2)) ([2; 3]%nat, []) arrays (glm g (ridge :: nil)) d (sum_zero :: nil) (ridge :: nil).
Proof. intros. apply (glm_problem g X N); auto. Qed.
(** a fit that returns: table with counts 4 in all cells, exposures 1 in the first row and
    2 in the second, from row effects ln 2, 0 whose sum must be 0, tolerance 1 *)
Lemma step2_exact A b x : la_solve (la_exact step2) A b = Ok x -> solves A x b.
Proof. apply checked_solves. Qed.
Example C80_nonvacuous : forall g, 3 <= g 5 -> exists H, let s' := mkState end2 (Some H) false d2 in let pen := goal (glm g nil) d2 (([2; 3]%nat, []) : pst) nil in
  ml_fit (glm g nil) (la_exact step2) 1 20 0 "Newton" kw2 state2 = (EvStep start2 :: EvTrial 1 (free_entries end2) :: nil, s', Ok true) /\
  n_free start2 = 4%nat /\ pen start2 <= pen end2 /\
  (exists mult G step, newton_system pen (sum_zero :: nil) start2 G H /\ solves H step G /\ moved_by mult step start2 end2 /\ length H = 5%nat) /\
  con_value sum_zero start2 = ln 2 /\ con_value sum_zero end2 = 0.
Proof.
  intros g Hg. destruct (run2 g Hg) as (H & Run). exists H. split; [exact Run|]. split; [reflexivity|].
  destruct (C80_newton_fit (glm g nil) (la_exact step2) 1 20 0 "Newton" kw2 state2 _ _ ([2; 3]%nat, []) arrays (sum_zero :: nil) nil eq_refl Run (effects_ok _ _ _ _ _) ltac:(cbn; lia) (fp2 g)) as (_ & Le & x & mult & G & H' & step & Hx & _ & _ & NS & EH & So & Mv & _).
  - intros x _. apply all_arrays.
  - exact step2_exact.
  - cbn [s_data]. rewrite (total_9 d2 d2_N). lra.
  - split; [exact Le|]. cbn [s_hess] in EH. injection EH as <-. destruct Hx as [Hx|[Hx|[]]]; [|discriminate Hx]. injection Hx as <-. split; [|split].
    + exists mult, G, step. split; [exact NS|]. split; [exact So|]. split; [exact Mv|]. exact (proj1 (proj2 (ns_size _ _ _ _ _ NS))).
    + unfold start2. rewrite sum_value. ring.
    + unfold end2. rewrite sum_value. field.
Qed.
Print Assumptions C80_nonvacuous.
Lemma sum_zero_affine : affine_term two_axes sum_zero.
Proof. exact (C81_linear two_axes (0 :: nil)%nat (1 :: nil) arrays (fun _ i _ => nth i (1 :: nil) 0) ltac:(repeat constructor)). Qed.
Example C81_nonvacuous : forall g, 3 <= g 5 -> exists tr s', ml_fit (glm g nil) (la_exact step2) 1 20 0 "newton" kw2 state2 = (tr, s', Ok true) /\
  affine_term (axes start2) sum_zero /\ con_value sum_zero start2 = ln 2 /\ ln 2 <> 0 /\ con_value sum_zero (s_params s') = 0 * con_value sum_zero start2.
Proof.
  intros g Hg. destruct (run2 g Hg) as (H & Run). eexists. eexists. split; [exact Run|]. split; [exact sum_zero_affine|]. split; [unfold start2; rewrite sum_value; ring|].
  split; [pose proof ln2_bounds; lra|]. cbn [s_params]. unfold end2. rewrite sum_value. field.
Qed.
Print Assumptions C81_nonvacuous.
(** the finding, on the same table with counts 2: ln 2, 0, 0, 0, 0 is the maximum *)
Definition X2 (i j : nat) : R := 2.
Definition kw22 : list (string * nda) := [("N"%string, tab N12); ("X"%string, tab X2)].
Definition d22 : string -> option tensor := s_data (fst (load_data state2 (data_args 0 kw22))).
Lemma exp_strict t : 1 + t <= exp t /\ (exp t <= 1 + t -> t = 0).
Proof.
  destruct (Req_dec t 0) as [->|N]; [rewrite exp_0; split; [lra|auto]|]. pose proof (exp_ineq1 t N). split; [lra|]. intros. lra.
Qed.
Lemma cell_max y0 y n : n * exp y0 = 2 -> 2 * y - n * exp y <= 2 * y0 - n * exp y0 /\ (2 * y0 - n * exp y0 <= 2 * y - n * exp y -> y = y0).
Proof.
  intros E. replace (n * exp y) with (2 * exp (y - y0)) by (rewrite <- E; replace y with (y0 + (y - y0)) at 2 by ring; rewrite exp_plus; ring). rewrite E.
  destruct (exp_strict (y - y0)) as [A B]. split; [lra|]. intros C. enough (y - y0 = 0) by lra. apply B. lra.
Qed.
Lemma frame_start q : params_ok q -> same_frame start2 q -> exists r0 r1 c0 c2, q = effects r0 r1 c0 0 c2.
Proof.
  intros [W _] (L & Sh & Mk & Fx). destruct q as [|[sh0 v0 m0] [|[sh1 v1 m1] [|]]]; try discriminate L. injection Sh as -> ->. injection Mk as -> ->.
  inversion W as [|? ? [[W0 _] _] W']; subst. inversion W' as [|? ? [[W1 _] _] _]; subst. cbn in W0, W1.
  destruct v0 as [|r0 [|r1 [|]]]; try discriminate W0. destruct v1 as [|c0 [|c1 [|c2 [|]]]]; try discriminate W1. cbn in Fx. injection Fx as ->. now exists r0, r1, c0, c2.
Qed.
Lemma pen22 g r0 r1 c0 c1 c2 : goal (glm g nil) d22 (([2; 3]%nat, []) : pst) nil (effects r0 r1 c0 c1 c2) =
  (2 * (r0 + c0) - 1 * exp (r0 + c0)) + (2 * (r0 + c1) - 1 * exp (r0 + c1)) + (2 * (r0 + c2) - 1 * exp (r0 + c2)) +
  (2 * (r1 + c0) - 2 * exp (r1 + c0)) + (2 * (r1 + c1) - 2 * exp (r1 + c1)) + (2 * (r1 + c2) - 2 * exp (r1 + c2)) - 6 * g 3.
Proof.
  unfold goal, penalized. cbn [ml_class ml_model glm]. change (o_f (linear2o 0)) with linear2. unfold log_likelihood, data. change (d22 "N"%string) with (data2 X2 N12 "N"). change (d22 "X"%string) with (data2 X2 N12 "X").
  assert (E : forall i j, (i < 2)%nat -> (j < 3)%nat -> fitted linear2 (map arr_of (effects r0 r1 c0 c1 c2)) [i; j] [] = nth i [r0; r1] 0 + nth j [c0; c1; c2] 0) by (intros; now apply linear2_fitted).
  set (ps := map arr_of _) in *. clearbody ps. unfold over. cbn [fst snd indices flat_map map seq app]. unfold Rsum. cbn [map fold_right]. unfold data2. cbn -[fitted exp]. rewrite !E by lia. cbn [nth].
  unfold X2, N12. replace (2 * 1 * 1 + 1) with 3 by ring. ring.
Qed.
Lemma start_max g q : params_ok q -> same_frame start2 q -> goal (glm g nil) d22 (([2; 3]%nat, []) : pst) nil start2 <= goal (glm g nil) d22 (([2; 3]%nat, []) : pst) nil q -> q = start2.
Proof.
  intros PO Fr. destruct (frame_start q PO Fr) as (r0 & r1 & c0 & c2 & ->). unfold start2. rewrite !pen22. destruct exp_start as [E1 E2]. intros Le.
  assert (N1 : 1 * exp (ln 2 + 0) = 2) by (rewrite E1; ring). assert (N2 : 2 * exp (0 + 0) = 2) by (rewrite E2; ring).
  destruct (cell_max _ (r0 + c0) 1 N1) as [A1 B1]. destruct (cell_max _ (r0 + 0) 1 N1) as [A2 B2]. destruct (cell_max _ (r0 + c2) 1 N1) as [A3 B3].
  destruct (cell_max _ (r1 + c0) 2 N2) as [A4 B4]. destruct (cell_max _ (r1 + 0) 2 N2) as [A5 B5]. destruct (cell_max _ (r1 + c2) 2 N2) as [A6 B6].
  assert (r0 + 0 = ln 2 + 0) by (apply B2; lra). assert (r1 + 0 = 0 + 0) by (apply B5; lra). assert (r1 + c0 = 0 + 0) by (apply B4; lra). assert (r1 + c2 = 0 + 0) by (apply B6; lra).
  replace r0 with (ln 2) by lra. replace r1 with 0 by lra. replace c0 with 0 by lra. replace c2 with 0 by lra. reflexivity.
Qed.
Example C81_refuted_nonvacuous : forall g la tol max_steps verbose tr s' out, (forall A b x, la_solve la A b = Ok x -> solves A x b) ->
  ml_fit (glm g nil) la tol max_steps verbose "newton" kw22 state2 = (tr, s', out) -> con_value sum_zero start2 = ln 2 /\ out <> Ok true.
Proof.
  intros g la tol ms v tr s' out Solve Run. assert (V : con_value sum_zero start2 = ln 2) by (unfold start2; rewrite sum_value; ring). split; [exact V|].
  assert (Ed : s_data s' = d22).
  { unfold ml_fit, fit in Run. change (load_data state2 (data_args (class_dim (ml_class (glm g nil))) kw22)) with (fst (load_data state2 (data_args 0 kw22)), Ok tt : res unit) in Run. cbn iota beta in Run.
    change (ParamModel.flat_params (s_params (fst (load_data state2 (data_args 0 kw22))))) with (Ok [ln 2; 0; 0; 0] : res (list R)) in Run. cbn iota beta in Run.
    change (String.eqb (lower "newton") "newton") with true in Run. cbn iota in Run. destruct out as [b|e].
    - destruct (newton_success _ _ _ _ _ _ _ _ _ _ Run) as (_ & L). destruct L as (? & ? & ? & ? & ? & ? & ? & ? & ? & _ & _ & _ & _ & _ & _ & _ & _ & _ & _ & Q). exact Q.
    - apply newton_raise in Run as (_ & _ & Q & _). exact Q. }
  apply (C81_unconstrained_start_refuted (glm g nil) la tol ms v "newton" kw22 state2 s' tr out ([2; 3]%nat, []) arrays (sum_zero :: nil) nil sum_zero); rewrite ?Ed; auto.
  - apply effects_ok.
  - cbn. lia.
  - apply (glm_problem g X2 N12 d22); [reflexivity|reflexivity|now right].
  - intros x _. apply all_arrays.
  - rewrite (total_9 d22 eq_refl). lra.
  - now left.
  - exact sum_zero_affine.
  - cbn [state2 s_params]. rewrite V. pose proof ln2_bounds. lra.
  - intros q POq Fr Le. exact (start_max g q POq Fr Le).
Qed.
Print Assumptions C81_refuted_nonvacuous.
