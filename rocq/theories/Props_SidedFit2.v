(** C92: its hypotheses are met by a fit that moves the parameters. *)
From Coq Require Import String.
From Verif Require Import Prelude DenseModel AnalyticSpec DenseProofs NDArray TensorModel FuncModel FTModel FTSpec LTModel LTSpec ETModel ETSpec ParamModel ParamSpec AssembleModel AssembleSpec OTModel OTSpec FitModel FitSpec FitProofs FTTwoSided Props_Sided Props_Sided2 NTModel NTSpec NTExample FTTwoSidedFit Props_SidedFit SidedExample.
From Coq Require Import Reals Lra.
Import List ListNotations.
Open Scope R_scope.

(** 4 events in one observation of one item, h fixed at 0, from a = b = 0: one Newton
    step, to a = 1/2 and b = -1/2; the constraint still holds *)
Example C92_nonvacuous : forall g, 3 <= g 5 -> exists H, let s' := mkState ends (Some H) false ds in
  ml_fit (sided_mle 1 g) (la_exact steps) 1 20 0 "Newton" kws states = (EvStep (pair1 0 0) :: EvTrial 1 (free_entries ends) :: nil, s', Ok true) /\
  fit_value g (T1 4) (T1 1) 1 (pair1 0 0) < fit_value g (T1 4) (T1 1) 1 ends /\
  item ends 0 0 = / 2 /\ item ends 1 0 = - / 2 /\ sum_of ends 1 = 0 /\
  exists x mult G step, newton_system (goal (sided_mle 1 g) ds ([1; 1]%nat, []) []) (sum_ab 1 :: nil) x G H /\ solves H step G /\ moved_by mult step x ends.
Proof.
  intros g Hg. destruct (runs g Hg) as (H & Run). exists H. cbv zeta. split; [exact Run|].
  destruct (C92_fit 1 g (la_exact steps) 1 20 0 "Newton" kws states _ _ (T1 4) (T1 1) ltac:(lia) eq_refl Run (pair1_ok 0 0) eq_refl ltac:(cbn; lia) eq_refl eq_refl (T1_data 4) (T1_data 1)) as (_ & _ & (r & _ & Er) & x & mult & G & H' & step & _ & _ & NS & EH & So & Mv & _).
  - intros A b y. apply checked_solves.
  - pose proof total_1 as T. unfold total, data in T. rewrite ds_N, over_pairs in T. rewrite T. lra.
  - cbn [s_hess] in EH. injection EH as <-. split; [|split; [|split; [|split]]].
    + unfold ends. rewrite !value_Q. replace (0 - 0) with 0 by ring. replace (0 - 1 * - / 2 - (0 - 1 * / 2)) with 1 by field. unfold Q. rewrite exp_0. pose proof exp1_bounds as [_ E]. lra.
    + unfold item, ends, pair1. cbn [nth p_vals]. ring.
    + unfold item, ends, pair1. cbn [nth p_vals]. ring.
    + cbn [s_params] in Er. rewrite Er. unfold sum_of, states. cbn [s_params seq]. rewrite Rsum_cons, Rsum_nil. unfold item, pair1. cbn [nth p_vals]. ring.
    + exists x, mult, G, step. auto.
Qed.
Print Assumptions C92_nonvacuous.
