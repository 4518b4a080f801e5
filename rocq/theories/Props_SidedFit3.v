(** C92: fitting the two-sided model with Broyden's method. *)
From Coq Require Import String.
From Verif Require Import Prelude DenseModel AnalyticSpec DenseProofs NDArray NDProofs TensorModel TensorSpec TensorSum TensorUfunc FuncModel FuncSpec FTModel FTSpec FTPrim FTBuilt LTModel LTPlain LTCell LTEst LTLik LTSpec ETModel ETSpec ParamModel ParamSpec AssembleModel AssembleSpec OTModel OTSpec OTSim2 OTCurve OTThm FitModel FitSpec FitProofs Props_LT Props_OT Props_ET FTTwoSided Props_Sided Props_Sided2 NTModel NTLoop NTSpec NTThm NTFit NTExample Props_NT NBSpec NTBroyden NBExample Props_NB FTTwoSidedFit Props_SidedFit SidedExample.
From Coquelicot Require Import Coquelicot.
From Coq Require Import Reals Lra Sorted.
Import List ListNotations.
Open Scope R_scope.
#[local] Existing Instance loose.

(** a first fit that returns: the constraint holds exactly, however far the start
    was from it *)
Theorem C92_broyden_fit : forall m g la tol max_steps verbose method kw s s' tr X W, (1 <= m)%nat ->
  lower method = "broyden"%string -> ml_fit (sided_mle m g) la tol max_steps verbose method kw s = (tr, s', Ok true) ->
  params_ok (s_params s) -> axes (s_params s) = sides m -> (1 <= n_free (s_params s))%nat -> s_conv s = false ->
  s_data s' "X"%string = Some X -> s_data s' "N"%string = Some W -> is_data ([m; m]%nat, []) (PT X) -> is_data ([m; m]%nat, []) (PT W) ->
  0 < pairs m (fun i j => cell (PT W) [i; j] []) -> exact_dot la -> exact_update la -> exact_pinvh la ->
  let start := s_params s in let final := s_params s' in
  (forall G H, newton_system (goal (sided_mle m g) (s_data s') ([m; m]%nat, []) []) (sum_ab m :: nil) start G H -> exists K, inverse H K) ->
  s_conv s' = true /\ same_frame start final /\ sum_of final m = 0 /\
  exists x, same_frame start x /\ fit_value g X W m final <> 0 /\ Rabs (fit_value g X W m x / fit_value g X W m final - 1) < tol.
Proof.
  intros m g la tol ms v method kw s s' tr X W Hm Me Run PO Ax Hf Cv EX EW DX DW Tot Dot Upd Pin start final Iv.
  pose proof (sided_problem m Hm g (s_data s') X W EX EW DX DW) as FP. rewrite <- Ax in FP at 1.
  assert (Wf : Forall param_wf (s_params s)) by (eapply Forall_impl; [|exact (proj1 PO)]; now intros p []).
  assert (Vis : forall x, x = s_params s \/ tried (s_params s) tr x -> params_ok x /\ axes x = sides m).
  { intros x [->|(mu & fl & _ & Rs)]; [auto|]. destruct (reshape_same_frame _ _ _ Wf Rs) as (Fr & Wx). split; [eapply frame_ok; eauto|]. rewrite <- Ax. now apply frame_axes. }
  assert (Dom : forall x, x = s_params s \/ tried (s_params s) tr x -> side_arrays m (map arr_of x)) by (intros x Hx; destruct (Vis x Hx); now apply params_side).
  assert (Tt : 0 < total (s_data s') ([m; m]%nat, [])) by (unfold total, data; rewrite EW, over_pairs; exact Tot).
  destruct (fit_broyden _ _ _ _ _ _ _ _ _ _ _ _ _ _ Me Run PO Hf FP (Dom _ (or_introl eq_refl)) (fun q Hq => Dom q (or_intror Hq)) Tt Dot Upd) as (Cf & Fr & POf & Con & (x & Hx & Fx & Nz & Tl) & _).
  - intros H J EJ [(G & NS)|(Y & _)]; [|congruence]. split; [eapply system_rows; eauto|]. destruct (Iv G H NS) as (K & IK). eapply Pin; eauto.
  - pose proof (eq_trans (frame_axes _ _ Fr) Ax) as Axf. destruct (Vis x Hx) as (POx & Axx).
    pose proof (C92_objective m g (s_data s') X W _ Hm EX EW POf Axf) as O2. pose proof (C92_objective m g (s_data s') X W _ Hm EX EW POx Axx) as O3.
    split; [exact Cf|]. split; [exact Fr|]. split.
    + unfold final. rewrite <- (C92_constraint_value m _ Hm POf Axf). apply Con; [now left|]. rewrite Ax. apply sum_ab_affine.
    + exists x. split; [exact Fx|]. unfold final. rewrite <- O2, <- O3. auto.
Qed.
Print Assumptions C92_broyden_fit.
