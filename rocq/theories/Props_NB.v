(** C82: MaxLike.fit with Broyden's method, for objects whose functions compute with
    Tensors. *)
From Coq Require Import String.
From Verif Require Import Prelude DenseModel AnalyticSpec DenseProofs NDArray NDProofs TensorModel TensorSpec TensorUfunc FuncModel FuncSpec FTModel FTSpec FTBuilt LTModel LTSpec ETModel ETSpec ParamModel ParamSpec AssembleModel AssembleSpec OTModel OTSpec FitModel FitSpec FitProofs Props_FT Props_OT Props_ET.
From Coquelicot Require Import Coquelicot.
From Coq Require Import Reals Lra Sorted.
From Verif Require Import NTModel NTSpec NTThm NTFit NTExample Props_NT NBSpec NTBroyden NBExample.
Import List ListNotations.
Open Scope R_scope.

(** *** C82: what a fit that returned has done, maxlike_base.py:508-555 *)
Theorem C82_broyden_fit : forall m la tol max_steps verbose method kw s s' tr dat D cons regs,
  lower method = "broyden"%string -> ml_fit m la tol max_steps verbose method kw s = (tr, s', Ok true) ->
  params_ok (s_params s) -> (1 <= n_free (s_params s))%nat -> s_conv s = false ->
  fit_problem (axes (s_params s)) dat D m (s_data s') cons regs ->
  (forall x, x = s_params s \/ tried (s_params s) tr x -> D (map arr_of x)) -> 0 < total (s_data s') dat ->
  exact_dot la -> exact_update la -> exact_pinvh la ->
  let start := s_params s in let final := s_params s' in let pen := goal m (s_data s') dat regs in
  (forall G H, newton_system pen cons start G H -> exists K, inverse H K) ->
  s_conv s' = true /\ same_frame start final /\
  (forall c, In c cons -> affine_term (axes start) c -> con_value c final = 0) /\
  exists x, (x = start \/ tried start tr x) /\ same_frame start x /\ pen final <> 0 /\ Rabs (pen x / pen final - 1) < tol.
Proof.
  intros m la tol ms v method kw s s' tr dat D cons regs Hm Run PO Hf Cv FP Dom Tot Dot Upd Pin start final pen Iv.
  destruct (fit_broyden m la tol ms v method kw s s' tr dat D cons regs Hm Run PO Hf FP (Dom _ (or_introl eq_refl)) (fun q Hq => Dom q (or_intror Hq)) Tot Dot Upd) as (A & B & _ & C & F & _).
  - intros H J EJ [(G & NS)|(X & _)]; [|congruence]. split; [eapply system_rows; eauto|]. destruct (Iv G H NS) as (K & IK). eapply Pin; eauto.
  - auto.
Qed.
Print Assumptions C82_broyden_fit.
(** also when the Hessian stored by an earlier fit is used again (maxlike_base.py:519-521): the
    Hessian stored at the end is fit for the next one *)
Theorem C82_refit : forall m la tol max_steps verbose method kw s s' tr dat D cons regs,
  lower method = "broyden"%string -> ml_fit m la tol max_steps verbose method kw s = (tr, s', Ok true) ->
  params_ok (s_params s) -> (1 <= n_free (s_params s))%nat ->
  (s_conv s = true -> forall H, s_hess s = Some H -> length H = (n_free (s_params s) + length cons)%nat -> constraint_rows cons (s_params s) H) ->
  fit_problem (axes (s_params s)) dat D m (s_data s') cons regs ->
  (forall x, x = s_params s \/ tried (s_params s) tr x -> D (map arr_of x)) -> 0 < total (s_data s') dat ->
  exact_dot la -> exact_update la -> always_inverse la ->
  let start := s_params s in let final := s_params s' in
  s_conv s' = true /\ same_frame start final /\ params_ok final /\
  (forall c, In c cons -> affine_term (axes start) c -> con_value c final = 0) /\
  exists H, s_hess s' = Some H /\ constraint_rows cons final H.
Proof.
  intros m la tol ms v method kw s s' tr dat D cons regs Hm Run PO Hf St FP Dom Tot Dot Upd Pin start final.
  destruct (fit_broyden m la tol ms v method kw s s' tr dat D cons regs Hm Run PO Hf FP (Dom _ (or_introl eq_refl)) (fun q Hq => Dom q (or_intror Hq)) Tot Dot Upd) as (A & B & PO' & C & _ & J & h & Bo & Eh & Es).
  - intros H J EJ [(G & NS)|(X & Y & Z)]; (split; [|exact (Pin _ _ EJ)]); [eapply system_rows; eauto|auto].
  - split; [exact A|]. split; [exact B|]. split; [exact PO'|]. split; [exact C|]. exists h. split; [exact Es|]. apply (rows_frame cons (s_params s)); auto. eapply bordered_back; eauto.
Qed.
Print Assumptions C82_refit.
(** finding: nothing makes the steps increase the likelihood; fit may return True with
    parameters worse than those it started from *)
Theorem C82_may_decrease_refuted : exists m la tol max_steps method kw s s' tr dat D cons regs,
  lower method = "broyden"%string /\ ml_fit m la tol max_steps 0 method kw s = (tr, s', Ok true) /\
  params_ok (s_params s) /\ s_conv s = false /\ fit_problem (axes (s_params s)) dat D m (s_data s') cons regs /\ 0 < total (s_data s') dat /\
  exact_dot la /\ exact_update la /\ always_inverse la /\
  goal m (s_data s') dat regs (s_params s') < goal m (s_data s') dat regs (s_params s) - 90.
Proof.
  set (g := fun x : R => if Req_EM_T x 5 then ln 24 else 0). assert (Hg : 0 <= g 5).
  { unfold g. destruct (Req_EM_T 5 5) as [_|N]; [|contradiction]. rewrite <- ln_1. apply ln_le; lra. }
  assert (H0 : 0 < 1 / 4) by lra. destruct (down4 g Hg) as (Dn & Nz & Cr). destruct (runu g (1 / 4) H0 None false (or_introl (conj eq_refl eq_refl)) Nz Cr) as (h' & Run).
  exists (glm g nil), (la_real (Ku (1 / 4)) (Hu (1 / 4))), 1, 20%Z, "Broyden"%string, kw2, (stateu (1 / 4) None false), (mkState (endu (1 / 4)) (Some h') true d2), (EvTrial 1 (free_entries (endu (1 / 4))) :: nil), ([2; 3]%nat, []), arrays, (sum_zero :: nil), nil.
  split; [reflexivity|]. split; [exact Run|]. split; [apply effects_ok|]. split; [reflexivity|]. split; [exact (fpu g (1 / 4))|]. split; [cbn [s_data]; rewrite (total_9 d2 d2_N); lra|].
  split; [apply la_real_dot|]. split; [apply la_real_update|]. split; [apply la_real_pinvh|]. exact Dn.
Qed.
Print Assumptions C82_may_decrease_refuted.

(** *** Instances: the fit of C80 with Broyden's method, fresh and with a stored Hessian *)
Example C82_nonvacuous : forall g, 3 <= g 5 -> exists h, let s' := mkState (endu 1) (Some h) true d2 in let pen := goal (glm g nil) d2 (([2; 3]%nat, []) : pst) nil in
  ml_fit (glm g nil) (la_real (Ku 1) (Hu 1)) 1 20 0 "Broyden" kw2 (stateu 1 None false) = (EvTrial 1 (free_entries (endu 1)) :: nil, s', Ok true) /\
  (forall G H, newton_system pen (sum_zero :: nil) (startu 1) G H -> exists K, inverse H K) /\
  n_free (startu 1) = 4%nat /\ con_value sum_zero (startu 1) = ln 2 + 2 * ln 1 /\ con_value sum_zero (endu 1) = 0 /\ pen (startu 1) < pen (endu 1).
Proof.
  intros g Hg. destruct (up1 g Hg) as (Up & Nz & Cr). assert (H1 : 0 < 1) by lra. destruct (runu g 1 H1 None false (or_introl (conj eq_refl eq_refl)) Nz Cr) as (h' & Run). exists h'. split; [exact Run|].
  assert (Iv : forall G H, newton_system (goal (glm g nil) d2 (([2; 3]%nat, []) : pst) nil) (sum_zero :: nil) (startu 1) G H -> exists K, inverse H K).
  { intros G H NS. destruct (start_values g d2 d2_N d2_X 1 G H H1 NS) as [_ ->]. exists (Ku 1). now apply inverse_HK. }
  split; [exact Iv|]. split; [reflexivity|]. split; [exact (proj1 (con_endu 1))|]. split; [|exact Up].
  destruct (C82_broyden_fit (glm g nil) (la_real (Ku 1) (Hu 1)) 1 20 0 "Broyden" kw2 (stateu 1 None false) _ _ ([2; 3]%nat, []) arrays (sum_zero :: nil) nil eq_refl Run (effects_ok _ _ _ _ _) ltac:(cbn; lia) eq_refl (fpu g 1)) as (_ & _ & C & _).
  - intros x _. apply all_arrays.
  - cbn [s_data]. rewrite (total_9 d2 d2_N). lra.
  - apply la_real_dot.
  - apply la_real_update.
  - intros A K J _. apply la_real_pinvh.
  - exact Iv.
  - exact (C sum_zero (or_introl eq_refl) sum_zero_affine).
Qed.
Print Assumptions C82_nonvacuous.
Example C82_refit_nonvacuous : forall g, 3 <= g 5 -> exists tr s' H, ml_fit (glm g nil) (la_real (Ku 1) (Hu 1)) 1 20 0 "broyden" kw2 (stateu 1 (Some (Hu 1)) true) = (tr, s', Ok true) /\
  constraint_rows (sum_zero :: nil) (startu 1) (Hu 1) /\ s_hess s' = Some H /\ constraint_rows (sum_zero :: nil) (s_params s') H.
Proof.
  intros g Hg. destruct (up1 g Hg) as (Up & Nz & Cr). assert (H1 : 0 < 1) by lra. destruct (runu g 1 H1 (Some (Hu 1)) true (or_intror (conj eq_refl eq_refl)) Nz Cr) as (h' & Run).
  assert (Rw : constraint_rows (sum_zero :: nil) (startu 1) (Hu 1)).
  { destruct (point_step _ _ (glm g nil) (la_real (Ku 1) (Hu 1)) d2 _ _ _ (fpu g 1) tot2 (startu 1) (effects_ok _ _ _ _ _) eq_refl (all_arrays _)) as (y & der & hs & G & H & _ & _ & _ & _ & NS).
    assert (Q : constraint_rows (sum_zero :: nil) (startu 1) H) by (eapply system_rows; [cbn; lia|exact NS]). destruct (start_values g d2 d2_N d2_X 1 G H H1 NS) as [_ E]. now rewrite E in Q. }
  destruct (C82_refit (glm g nil) (la_real (Ku 1) (Hu 1)) 1 20 0 "Broyden" kw2 (stateu 1 (Some (Hu 1)) true) _ _ ([2; 3]%nat, []) arrays (sum_zero :: nil) nil eq_refl Run (effects_ok _ _ _ _ _) ltac:(cbn; lia)) as (_ & _ & _ & _ & H & EH & RH).
  - intros _ H EH _. cbn in EH. injection EH as <-. exact Rw.
  - exact (fpu g 1).
  - intros x _. apply all_arrays.
  - cbn [s_data]. rewrite (total_9 d2 d2_N). lra.
  - apply la_real_dot.
  - apply la_real_update.
  - apply la_real_pinvh.
  - eexists. eexists. exists H. split; [exact Run|]. split; [exact Rw|]. split; [exact EH|exact RH].
Qed.
Print Assumptions C82_refit_nonvacuous.
