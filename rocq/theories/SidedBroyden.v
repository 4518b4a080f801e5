(** A fit of the two-sided model with Broyden's method that returns: as SidedExample.v,
    from a = b = 1, where the constraint does not hold. *)
From Coq Require Import String.
From Verif Require Import Prelude DenseModel AnalyticSpec DenseProofs NDArray NDProofs TensorModel TensorSpec TensorSum TensorUfunc FuncModel FuncSpec FTModel FTSpec FTPrim FTBuilt LTModel LTPlain LTCell LTEst LTLik LTSpec ETModel ETSpec ParamModel ParamSpec AssembleModel AssembleSpec OTModel OTSpec OTSim2 OTCurve OTThm FitModel FitSpec FitProofs Props_LT Props_OT Props_ET FTTwoSided Props_Sided Props_Sided2 NTModel NTLoop NTSpec NTThm NTFit NTExample Props_NT NBSpec NTBroyden NBExample Props_NB FTTwoSidedFit Props_SidedFit SidedExample Props_SidedFit3.
From Coquelicot Require Import Coquelicot.
From Coq Require Import Reals Lra Sorted.
Import List ListNotations.
Open Scope R_scope.
#[local] Existing Instance loose.

Definition H3 : list (list R) := [[-2; 2; 1]; [2; -2; 1]; [1; 1; 0]].
Definition K3 : list (list R) := [[- / 8; / 8; / 2]; [/ 8; - / 8; / 2]; [/ 2; / 2; 0]].
Definition G3 : list R := [2; -2; 2].
Definition step3 : list R := [/ 2; 3 / 2; 0].
Definition endb : list (param R) := pair1 (1 + - / 2) (1 + - (3 / 2)).
Definition stateb : state R (list (list R)) tensor := mkState (pair1 1 1) None false (fun _ => None).
Lemma inverse3 : inverse H3 K3 /\ inverse K3 H3.
Proof.
  split; (split; [reflexivity|]); intros i j Hi Hj; change (length H3) with 3%nat in *; change (length K3) with 3%nat in *; unfold Rsum; cbn [seq map fold_right];
    destruct i as [|[|[|i]]]; try lia; destruct j as [|[|[|j]]]; try lia; cbn [H3 K3 nth Nat.eqb]; field; lra.
Qed.
Lemma dot3 : dot_real K3 G3 = Ok step3.
Proof.
  unfold dot_real, step3. f_equal. change (length K3) with 3%nat. cbn [seq map]. unfold row_dot. change (length G3) with 3%nat. unfold Rsum. cbn [seq map fold_right K3 G3 nth].
  f_equal; [field|]. f_equal; [field|]. f_equal. field.
Qed.
Section run.
Variable g : R -> R.
Hypothesis Hg : 3 <= g 5.
Notation m1 := (sided_mle 1 g).
Notation dat := (([1; 1]%nat, []) : pst).
Notation pen := (goal m1 ds dat []).
Notation la := (la_real K3 H3).
Lemma values3 G H : newton_system pen (sum_ab 1 :: nil) (pair1 1 1) G H -> G = G3 /\ H = H3.
Proof.
  intros [Sz Gr Co He Bo Sy Cn]. change (n_free (pair1 1 1)) with 2%nat in *. cbn [length Nat.add] in Sz, Sy, Cn. destruct Sz as (LG & LH & LR).
  assert (E0 : exp (1 - 1) = 1) by (replace (1 - 1) with 0 by ring; apply exp_0).
  assert (G0 : nth 0 G 0 = 2) by (rewrite (uniq _ _ _ _ (Gr 0%nat 0%nat 0%nat eq_refl) (part_a g 1 1)), E0; ring).
  assert (G1 : nth 1 G 0 = -2) by (rewrite (uniq _ _ _ _ (Gr 1%nat 1%nat 0%nat eq_refl) (part_b g 1 1)), E0; ring).
  assert (G2 : nth 2 G 0 = 2) by (transitivity (con_value (sum_ab 1) (pair1 1 1)); [exact (Co 0%nat (sum_ab 1) eq_refl)|rewrite con_ab; ring]).
  assert (H00 : nth 0 (nth 0 H []) 0 = -2) by (rewrite (uniq _ _ _ _ (He 0%nat 0%nat 0%nat 0%nat 0%nat 0%nat eq_refl eq_refl) (h_aa g 1 1)), E0; ring).
  assert (H01 : nth 1 (nth 0 H []) 0 = 2) by (rewrite (uniq _ _ _ _ (He 0%nat 1%nat 0%nat 0%nat 1%nat 0%nat eq_refl eq_refl) (h_ab g 1 1)), E0; ring).
  assert (H11 : nth 1 (nth 1 H []) 0 = -2) by (rewrite (uniq _ _ _ _ (He 1%nat 1%nat 1%nat 0%nat 1%nat 0%nat eq_refl eq_refl) (h_bb g 1 1)), E0; ring).
  assert (H10 : nth 0 (nth 1 H []) 0 = 2) by (rewrite Sy by lia; exact H01).
  assert (H20 : nth 0 (nth 2 H []) 0 = 1) by (exact (uniq _ _ _ _ (Bo 0%nat (sum_ab 1) 0%nat 0%nat 0%nat eq_refl eq_refl) (c_a 1 1))).
  assert (H21 : nth 1 (nth 2 H []) 0 = 1) by (exact (uniq _ _ _ _ (Bo 0%nat (sum_ab 1) 1%nat 1%nat 0%nat eq_refl eq_refl) (c_b 1 1))).
  assert (H02 : nth 2 (nth 0 H []) 0 = 1) by (rewrite Sy by lia; exact H20).
  assert (H12 : nth 2 (nth 1 H []) 0 = 1) by (rewrite Sy by lia; exact H21).
  assert (H22 : nth 2 (nth 2 H []) 0 = 0) by (apply Cn; lia).
  clear Gr Co He Bo Sy Cn. split.
  - unfold G3. destruct G as [|? [|? [|? [|]]]]; try discriminate LG. cbn [nth] in *. congruence.
  - pose proof (LR 0%nat ltac:(lia)) as L0. pose proof (LR 1%nat ltac:(lia)) as L1. pose proof (LR 2%nat ltac:(lia)) as L2. clear LR G0 G1 G2.
    destruct H as [|a0 [|a1 [|a2 [|]]]]; try discriminate LH. cbn [nth] in *. unfold H3.
    destruct a0 as [|? [|? [|? [|]]]]; try discriminate L0. destruct a1 as [|? [|? [|? [|]]]]; try discriminate L1. destruct a2 as [|? [|? [|? [|]]]]; try discriminate L2. cbn [nth] in *. congruence.
Qed.
Lemma progress3 : pen endb <> 0 /\ Rabs (pen (pair1 1 1) / pen endb - 1) < 1.
Proof.
  destruct (progress g Hg) as (_ & N & C). unfold ends in *. unfold endb. rewrite !pen_Q in *.
  replace (1 + - / 2 - (1 + - (3 / 2))) with (0 - 1 * - / 2 - (0 - 1 * / 2)) by field. replace (1 - 1) with (0 - 0) by ring. split; [lra|exact C].
Qed.
Lemma pinvh_H3 : la_pinvh la H3 = Ok K3.
Proof. cbn [la_pinvh la_real]. unfold pinvh_real. rewrite (proj2 (inv_check_ok _ _) (proj1 inverse3)). reflexivity. Qed.
Lemma pinvh_K3 : exists h, la_pinvh la K3 = Ok h.
Proof. cbn [la_pinvh la_real]. unfold pinvh_real. destruct (inv_check K3 K3); [eauto|]. rewrite (proj2 (inv_check_ok _ _) (proj2 inverse3)). eauto. Qed.
Theorem run3 : exists h', ml_fit m1 la 1 20 0 "Broyden" kws stateb = (EvTrial 1 (free_entries endb) :: nil, mkState endb (Some h') true ds, Ok true).
Proof.
  destruct pinvh_K3 as (h' & EK). destruct progress3 as (Nz & Cr). exists h'. unfold ml_fit, fit.
  pose proof (fps g) as FP.
  change (load_data stateb (data_args (class_dim (ml_class m1)) kws)) with (mkState (pair1 1 1) None false ds : state R (list (list R)) tensor, Ok tt : res unit). cbn iota beta.
  cbn [s_params]. change (ParamModel.flat_params (pair1 1 1)) with (Ok [1; 1] : res (list R)). cbn iota beta.
  change (String.eqb (lower "Broyden") "newton") with false. change (String.eqb (lower "Broyden") "broyden") with true. cbn iota. change (Z.to_nat 20) with 20%nat.
  destruct (point_step _ _ m1 la ds _ _ _ FP tot1 (pair1 1 1) (pair1_ok _ _) eq_refl (pair1_dom _ _)) as (y & der & hs & G & H & Ev & Ob & Gr & He & NS).
  destruct (values3 G H NS) as [-> ->].
  unfold broyden. cbn [s_data s_params]. rewrite (point_g _ _ m1 la ds _ _ _ FP tot1 (pair1 1 1) (pair1_ok _ _) eq_refl (pair1_dom _ _)). rewrite total_1. change (0 <? 0)%nat with false. cbn iota.
  unfold broyden_try. cbn [s_data s_params s_conv s_hess]. rewrite Ev. cbn [rbind]. rewrite Gr. cbn [rbind]. rewrite He. cbn [rbind].
  assert (L : forall s2, s_params s2 = pair1 1 1 -> s_data s2 = ds -> broyden_loop (fit_of m1 la) 0 1 2 s2 20 K3 (pen (pair1 1 1) / 1) G3 [1; 1] =
    (EvTrial 1 (free_entries endb) :: nil, mkState endb (Some h') true ds, Ok true)).
  { intros s2 P2 D2. cbn [broyden_loop]. rewrite P2, D2. change (m_dot (fit_of m1 la) K3 G3) with (dot_real K3 G3). rewrite dot3. cbn [rbind].
    change (v_iadd (fit_of m1 la) [1; 1] (firstn 2 (map (f_neg (fit_of m1 la)) step3))) with (Ok (free_entries endb) : res (list R)). cbn [rbind].
    change (reshape_params (pair1 1 1) (free_entries endb)) with (Ok endb : res (list (param R))). cbn [rbind].
    rewrite (point_g _ _ m1 la ds _ _ _ FP tot1 endb (pair1_ok _ _) eq_refl (pair1_dom _ _)). rewrite total_1. change (0 <? 0)%nat with false. cbn iota.
    unfold criterion. cbn [fit_of f_div f_lt f_abs f_sub f_one]. unfold Rdiv_py. destruct (Req_EM_T _ 0) as [Z|_]; [exfalso; apply Nz; lra|]. cbn [rbind]. unfold Rlt_b.
    match goal with |- context [Rlt_dec ?a ?b] => destruct (Rlt_dec a b) as [_|N] end.
    - change (sp_pinvh (fit_of m1 la) K3) with (la_pinvh la K3). rewrite EK. unfold set_conv, set_hess, set_params. cbn [s_data s_params]. rewrite D2. reflexivity.
    - exfalso. apply N. replace (pen (pair1 1 1) / 1 / (pen endb / 1)) with (pen (pair1 1 1) / pen endb); [exact Cr|]. field. exact Nz. }
  cbn [andb]. set (s2 := set_hess (mkState (pair1 1 1) None false ds) H3).
  change (s_hess s2) with (Some H3). cbn iota. change (sp_pinvh (fit_of m1 la) H3) with (la_pinvh la H3). rewrite pinvh_H3. cbn [rbind]. change (cut_index (n_constraints (fit_of m1 la)) (length G3)) with (Ok 2%nat : res nat). cbn [rbind]. rewrite (L s2 eq_refl eq_refl). reflexivity.
Qed.
End run.
