(** A fit of the two-sided model that succeeds, with one item: 4 events in one
    observation, [h] fixed at 0.  Used in Props_SidedFit2.v to show that the
    hypotheses of C92 are met together. *)
From Coq Require Import String.
From Verif Require Import Prelude DenseModel AnalyticSpec DenseProofs NDArray NDProofs TensorModel TensorSpec TensorSum TensorUfunc FuncModel FuncSpec FTModel FTSpec FTPrim FTBuilt LTModel LTPlain LTCell LTEst LTLik LTSpec ETModel ETSpec ParamModel ParamSpec AssembleModel AssembleSpec OTModel OTSpec OTSim2 OTCurve OTThm FitModel FitSpec FitProofs Props_LT Props_OT Props_ET FTTwoSided Props_Sided Props_Sided2 NTModel NTLoop NTSpec NTThm NTFit NTExample Props_NT FTTwoSidedFit Props_SidedFit.
From Coquelicot Require Import Coquelicot.
From Coq Require Import Reals Lra Sorted.
Import List ListNotations.
Open Scope R_scope.
#[local] Existing Instance loose.

Definition pair1 (a b : R) : list (param R) := [mkParam (1 :: nil)%nat (a :: nil) (false :: nil); mkParam (1 :: nil)%nat (b :: nil) (false :: nil); mkParam [] (0 :: nil) (true :: nil)].
Definition one1 (v : R) : nda := mkA [1; 1]%nat (fun _ => v).
Definition T1 (v : R) : tensor := mkT (one1 v) 0 0 2 0 [] [].
Definition kws : list (string * nda) := [("N"%string, one1 1); ("X"%string, one1 4)].
Definition states : state R (list (list R)) tensor := mkState (pair1 0 0) None false (fun _ => None).
Definition ds : string -> option tensor := s_data (fst (load_data states (data_args 0 kws))).
Lemma ds_X : ds "X"%string = Some (T1 4).
Proof. reflexivity. Qed.
Lemma ds_N : ds "N"%string = Some (T1 1).
Proof. reflexivity. Qed.
Lemma T1_data v : is_data ([1; 1]%nat, []) (PT (T1 v)).
Proof. eexists. split; [reflexivity|]. split; [repeat split|]. constructor; cbn; auto; repeat constructor; cbn; lia. Qed.
Lemma pair1_ok a b : params_ok (pair1 a b).
Proof. split; [repeat constructor|discriminate]. Qed.
Lemma pair1_axes a b : axes (pair1 a b) = sides 1.
Proof. reflexivity. Qed.
Lemma exp1_low : 5 / 2 <= exp 1.
Proof.
  replace 1 with (INR 8 * (1 / 8)) by (cbn; lra). rewrite exp_pow. pose proof (exp_ineq1 (1 / 8) ltac:(lra)) as I. eapply Rle_trans; [|apply pow_incr; split; [|left; exact I]]; lra.
Qed.
Section run.
Variable g : R -> R.
Hypothesis Hg : 3 <= g 5.
Notation m1 := (sided_mle 1 g).
Notation pen := (goal m1 ds (([1; 1]%nat, []) : pst) []).
Definition Q (u : R) : R := 4 * (ln 2 + u) - 2 * exp u - g 5.
Lemma value_Q a b : fit_value g (T1 4) (T1 1) 1 (pair1 a b) = Q (a - b).
Proof.
  unfold fit_value, loglikelihood, pairs. cbn [seq]. rewrite !Rsum_cons, !Rsum_nil. unfold scored, conceded, item, pair1. cbn [nth p_vals].
  replace (a - b + 0) with (a - b) by ring. replace (a - b - 0) with (a - b) by ring. replace (exp (a - b) + exp (a - b)) with (2 * exp (a - b)) by ring.
  rewrite ln_mult, ln_exp by (try lra; apply exp_pos). unfold cell, T1, one1. cbn -[exp ln]. unfold Q. replace (4 * 1 * 1 + 1) with 5 by ring. ring.
Qed.
Lemma pen_Q a b : pen (pair1 a b) = Q (a - b).
Proof. rewrite (C92_objective 1 g ds (T1 4) (T1 1) (pair1 a b) ltac:(lia) ds_X ds_N (pair1_ok a b) (pair1_axes a b)). apply value_Q. Qed.
Lemma con_ab a b : con_value (sum_ab 1) (pair1 a b) = a + b.
Proof. rewrite (C92_constraint_value 1 _ ltac:(lia) (pair1_ok a b) (pair1_axes a b)). unfold sum_of. cbn [seq]. rewrite Rsum_cons, Rsum_nil. cbn. ring. Qed.
Lemma part_a a b : is_partial pen 0 0 (pair1 a b) (4 - 2 * exp (a - b)).
Proof. unfold is_partial. apply (is_derive_ext (fun t => Q (t - b))); [intros t; symmetry; exact (pen_Q t b)|]. cbn [entry_of pair1 nth p_vals]. unfold Q. auto_derive; [exact I|]. unfold Rminus. ring. Qed.
Lemma part_b a b : is_partial pen 1 0 (pair1 a b) (- (4 - 2 * exp (a - b))).
Proof. unfold is_partial. apply (is_derive_ext (fun t => Q (a - t))); [intros t; symmetry; exact (pen_Q a t)|]. cbn [entry_of pair1 nth p_vals]. unfold Q. auto_derive; [exact I|]. unfold Rminus. ring. Qed.
Lemma h_aa a b : is_partial (partial pen 0 0) 0 0 (pair1 a b) (- (2 * exp (a - b))).
Proof. unfold is_partial. apply (is_derive_ext (fun t => 4 - 2 * exp (t - b))); [intros t; symmetry; exact (is_derive_unique _ _ _ (part_a t b))|]. cbn [entry_of pair1 nth p_vals]. auto_derive; [exact I|]. unfold Rminus. ring. Qed.
Lemma h_ab a b : is_partial (partial pen 0 0) 1 0 (pair1 a b) (2 * exp (a - b)).
Proof. unfold is_partial. apply (is_derive_ext (fun t => 4 - 2 * exp (a - t))); [intros t; symmetry; exact (is_derive_unique _ _ _ (part_a a t))|]. cbn [entry_of pair1 nth p_vals]. auto_derive; [exact I|]. unfold Rminus. ring. Qed.
Lemma h_bb a b : is_partial (partial pen 1 0) 1 0 (pair1 a b) (- (2 * exp (a - b))).
Proof. unfold is_partial. apply (is_derive_ext (fun t => - (4 - 2 * exp (a - t)))); [intros t; symmetry; exact (is_derive_unique _ _ _ (part_b a t))|]. cbn [entry_of pair1 nth p_vals]. auto_derive; [exact I|]. unfold Rminus. ring. Qed.
Lemma c_a a b : is_partial (con_value (sum_ab 1)) 0 0 (pair1 a b) 1.
Proof. unfold is_partial. apply (is_derive_ext (fun t => t + b)); [intros t; symmetry; exact (con_ab t b)|]. auto_derive; [exact I|]. cbn. ring. Qed.
Lemma c_b a b : is_partial (con_value (sum_ab 1)) 1 0 (pair1 a b) 1.
Proof. unfold is_partial. apply (is_derive_ext (fun t => a + t)); [intros t; symmetry; exact (con_ab a t)|]. auto_derive; [exact I|]. cbn. ring. Qed.
Definition steps : list R := [- / 2; / 2; 0].
Definition ends : list (param R) := pair1 (0 - 1 * (- / 2)) (0 - 1 * (/ 2)).
Lemma first_solution G H : newton_system pen (sum_ab 1 :: nil) (pair1 0 0) G H -> solves H steps G.
Proof.
  intros [Sz Gr Co He Bo Sy Cn]. change (n_free (pair1 0 0)) with 2%nat in *. cbn [length Nat.add] in Sz, Sy, Cn. destruct Sz as (LG & LH & LR).
  assert (E0 : exp (0 - 0) = 1) by (rewrite Rminus_0_r; apply exp_0).
  assert (G0 : nth 0 G 0 = 2) by (rewrite (uniq _ _ _ _ (Gr 0%nat 0%nat 0%nat eq_refl) (part_a 0 0)), E0; ring).
  assert (G1 : nth 1 G 0 = -2) by (rewrite (uniq _ _ _ _ (Gr 1%nat 1%nat 0%nat eq_refl) (part_b 0 0)), E0; ring).
  assert (G2 : nth 2 G 0 = 0) by (transitivity (con_value (sum_ab 1) (pair1 0 0)); [exact (Co 0%nat (sum_ab 1) eq_refl)|rewrite con_ab; ring]).
  assert (H00 : nth 0 (nth 0 H []) 0 = -2) by (rewrite (uniq _ _ _ _ (He 0%nat 0%nat 0%nat 0%nat 0%nat 0%nat eq_refl eq_refl) (h_aa 0 0)), E0; ring).
  assert (H01 : nth 1 (nth 0 H []) 0 = 2) by (rewrite (uniq _ _ _ _ (He 0%nat 1%nat 0%nat 0%nat 1%nat 0%nat eq_refl eq_refl) (h_ab 0 0)), E0; ring).
  assert (H11 : nth 1 (nth 1 H []) 0 = -2) by (rewrite (uniq _ _ _ _ (He 1%nat 1%nat 1%nat 0%nat 1%nat 0%nat eq_refl eq_refl) (h_bb 0 0)), E0; ring).
  assert (H10 : nth 0 (nth 1 H []) 0 = 2) by (rewrite Sy by lia; exact H01).
  assert (H20 : nth 0 (nth 2 H []) 0 = 1) by (exact (uniq _ _ _ _ (Bo 0%nat (sum_ab 1) 0%nat 0%nat 0%nat eq_refl eq_refl) (c_a 0 0))).
  assert (H21 : nth 1 (nth 2 H []) 0 = 1) by (exact (uniq _ _ _ _ (Bo 0%nat (sum_ab 1) 1%nat 1%nat 0%nat eq_refl eq_refl) (c_b 0 0))).
  assert (H02 : nth 2 (nth 0 H []) 0 = 1) by (rewrite Sy by lia; exact H20).
  assert (H12 : nth 2 (nth 1 H []) 0 = 1) by (rewrite Sy by lia; exact H21).
  assert (H22 : nth 2 (nth 2 H []) 0 = 0) by (apply Cn; lia).
  split; [rewrite LG; reflexivity|]. intros k Hk. rewrite LG in Hk. unfold steps. cbn [length seq]. unfold Rsum. cbn [map fold_right].
  destruct k as [|[|[|k]]]; [| | |lia].
  - rewrite H00, H01, H02, G0. cbn [nth]. field.
  - rewrite H10, H11, H12, G1. cbn [nth]. field.
  - rewrite H20, H21, H22, G2. cbn [nth]. field.
Qed.
Lemma progress : pen (pair1 0 0) <= pen ends /\ pen ends < 0 /\ Rabs (pen (pair1 0 0) / pen ends - 1) < 1.
Proof.
  unfold ends. rewrite !pen_Q. replace (0 - 0) with 0 by ring. replace (0 - 1 * - / 2 - (0 - 1 * / 2)) with 1 by field. unfold Q. rewrite exp_0.
  destruct exp1_bounds as [_ E2]. pose proof exp1_low as E1. destruct ln2_bounds as [L1 L2]. set (e := exp 1) in *. set (l := ln 2) in *. clearbody e l.
  split; [lra|]. split; [lra|]. set (b := 4 * (l + 1) - 2 * e - g 5) in *. set (a := 4 * (l + 0) - 2 * 1 - g 5). assert (Hab : a <= b) by (unfold a, b; lra). assert (H2 : 2 * b < a) by (unfold a, b; lra). assert (Nb : b < 0) by (unfold b; lra). clearbody a b.
  replace (a / b - 1) with ((b - a) / - b) by (field; lra). rewrite Rabs_right.
  - apply (Rmult_lt_reg_r (- b)); [lra|]. unfold Rdiv. rewrite Rmult_assoc, Rinv_l by lra. lra.
  - apply Rle_ge. apply Rmult_le_pos; [lra|]. left. apply Rinv_0_lt_compat. lra.
Qed.
Notation la := (la_exact steps).
Lemma fps : fit_problem (axes (pair1 0 0)) ([1; 1]%nat, []) (side_arrays 1) m1 ds (sum_ab 1 :: nil) nil.
Proof. apply (sided_problem 1 ltac:(lia) g ds (T1 4) (T1 1) ds_X ds_N (T1_data 4) (T1_data 1)). Qed.
Lemma pair1_dom a b : side_arrays 1 (map arr_of (pair1 a b)).
Proof. apply params_side; [apply pair1_ok|reflexivity]. Qed.
Lemma total_1 : total ds ([1; 1]%nat, []) = 1.
Proof. unfold total, data. rewrite ds_N. rewrite over_pairs. unfold pairs. cbn [seq]. rewrite !Rsum_cons, !Rsum_nil. unfold cell, T1, one1. cbn. ring. Qed.
Lemma tot1 : total ds ([1; 1]%nat, []) <> 0.
Proof. rewrite total_1. lra. Qed.
Lemma first_step : exists G H, newton_step (fit_of m1 la) ds (pair1 0 0) = Ok (firstn 2 steps, pen (pair1 0 0) / 1, G, H).
Proof.
  destruct (point_step _ _ m1 la ds _ _ _ fps tot1 (pair1 0 0) (pair1_ok _ _) eq_refl (pair1_dom _ _)) as (y & der & hs & G & H & Ev & Ob & Gr & He & NS).
  exists G, H. unfold newton_step. rewrite Ev. cbn [rbind]. rewrite Ob. cbn [rbind]. rewrite Gr. cbn [rbind]. rewrite He. cbn [rbind].
  change (np_solve (fit_of m1 la) H G) with (checked steps H G). rewrite (solves_checked _ _ _ (first_solution G H NS)). cbn [rbind].
  rewrite total_1. reflexivity.
Qed.
Lemma first_trial : g_at (fit_of m1 la) ds ends = Ok (pen ends / 1).
Proof. rewrite (point_g _ _ m1 la ds _ _ _ fps tot1 ends (pair1_ok _ _) eq_refl (pair1_dom _ _)). now rewrite total_1. Qed.
Theorem runs : exists H, ml_fit m1 la 1 20 0 "Newton" kws states =
  (EvStep (pair1 0 0) :: EvTrial 1 (free_entries ends) :: nil, mkState ends (Some H) false ds, Ok true).
Proof.
  destruct first_step as (G & H & SR). exists H. unfold ml_fit, fit. change (load_data states (data_args (class_dim (ml_class m1)) kws)) with (mkState (pair1 0 0) None false ds : state R (list (list R)) tensor, Ok tt : res unit). cbn iota beta.
  cbn [s_params]. change (ParamModel.flat_params (pair1 0 0)) with (Ok [0; 0] : res (list R)). cbn iota beta.
  change (String.eqb (lower "Newton") "newton") with true. cbn iota. change (Z.to_nat 20) with 20%nat. cbn [newton_loop s_data s_params]. rewrite SR. cbn iota beta.
  cbn [inner]. change (v_op (f_sub (fit_of m1 la)) [0; 0] (map (f_mul (fit_of m1 la) (f_one (fit_of m1 la))) (firstn 2 steps))) with (Ok (free_entries ends) : res (list R)). cbn iota beta.
  change (reshape_params (pair1 0 0) (free_entries ends)) with (Ok ends : res (list (param R))). cbn iota beta. rewrite first_trial. cbn iota beta.
  destruct progress as (P1 & P2 & P3). cbn [fit_of f_ge]. unfold Rge_b. destruct (Rge_dec _ _) as [_|N]; [|exfalso; apply N; unfold Rdiv; lra]. cbn iota.
  unfold criterion. cbn [fit_of f_div f_lt f_abs f_sub f_one]. unfold Rdiv_py. destruct (Req_EM_T _ 0) as [Z|_]; [exfalso; unfold Rdiv in Z; lra|]. cbn [rbind]. unfold Rlt_b.
  match goal with |- context [Rlt_dec ?a ?b] => destruct (Rlt_dec a b) as [_|N] end.
  - reflexivity.
  - exfalso. apply N. replace (pen (pair1 0 0) / 1 / (pen ends / 1)) with (pen (pair1 0 0) / pen ends); [exact P3|]. field. lra.
Qed.
End run.
