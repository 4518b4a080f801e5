(** C92: the hypotheses of the theorem on Broyden's method are met by a fit whose
    start violates the constraint. *)
From Coq Require Import String.
From Verif Require Import Prelude DenseModel AnalyticSpec DenseProofs NDArray TensorModel FuncModel FTModel FTSpec LTModel LTSpec ETModel ETSpec ParamModel ParamSpec AssembleModel AssembleSpec OTModel OTSpec FitModel FitSpec FTTwoSided Props_Sided Props_Sided2 NTModel NTSpec NTExample NBSpec NBExample FTTwoSidedFit Props_SidedFit SidedExample Props_SidedFit3 SidedBroyden.
From Coq Require Import Reals Lra.
Import List ListNotations.
Open Scope R_scope.

Example C92_broyden_nonvacuous : forall g, 3 <= g 5 -> exists h, let s' := mkState endb (Some h) true ds in
  ml_fit (sided_mle 1 g) (la_real K3 H3) 1 20 0 "Broyden" kws stateb = (EvTrial 1 (free_entries endb) :: nil, s', Ok true) /\
  (forall G H, newton_system (goal (sided_mle 1 g) ds ([1; 1]%nat, []) []) (sum_ab 1 :: nil) (pair1 1 1) G H -> exists K, inverse H K) /\
  sum_of (pair1 1 1) 1 = 2 /\ sum_of endb 1 = 0 /\ item endb 0 0 = / 2 /\
  fit_value g (T1 4) (T1 1) 1 (pair1 1 1) < fit_value g (T1 4) (T1 1) 1 endb.
Proof.
  intros g Hg. destruct (run3 g Hg) as (h & Run). exists h. cbv zeta. split; [exact Run|].
  assert (Iv : forall G H, newton_system (goal (sided_mle 1 g) ds ([1; 1]%nat, []) []) (sum_ab 1 :: nil) (pair1 1 1) G H -> exists K, inverse H K).
  { intros G H NS. destruct (values3 g G H NS) as [_ ->]. exists K3. apply inverse3. }
  split; [exact Iv|].
  destruct (C92_broyden_fit 1 g (la_real K3 H3) 1 20 0 "Broyden" kws stateb _ _ (T1 4) (T1 1) ltac:(lia) eq_refl Run (pair1_ok 1 1) eq_refl ltac:(cbn; lia) eq_refl eq_refl eq_refl (T1_data 4) (T1_data 1)) as (_ & _ & Z & _).
  - pose proof total_1 as T. unfold total, data in T. rewrite ds_N, over_pairs in T. rewrite T. lra.
  - apply la_real_dot.
  - apply la_real_update.
  - intros A K J _. apply la_real_pinvh.
  - exact Iv.
  - split; [|split; [exact Z|split]].
    + unfold sum_of. cbn [seq]. rewrite Rsum_cons, Rsum_nil. unfold item, pair1. cbn [nth p_vals]. ring.
    + unfold item, endb, pair1. cbn [nth p_vals]. field.
    + unfold endb. rewrite !value_Q. replace (1 - 1) with 0 by ring. replace (1 + - / 2 - (1 + - (3 / 2))) with 1 by field. unfold Q. rewrite exp_0. pose proof exp1_bounds as [_ E]. lra.
Qed.
Print Assumptions C92_broyden_nonvacuous.
