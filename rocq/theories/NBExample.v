(** Fits with Broyden's method that return: the table of NTExample.v, starting from
    the row effects ln (2 u) and ln u.  For u = 1 the first step increases the
    penalized likelihood, for u = 1/4 it decreases it. *)
From Coq Require Import String.
From Verif Require Import Prelude DenseModel AnalyticSpec DenseProofs NDArray NDProofs TensorModel TensorSpec TensorUfunc FuncModel FuncSpec FTModel FTSpec FTPrim FTWrap FTRep FTBuilt FTValue FTFindings LTModel LTLik LTSpec LTDer ETModel ETSpec ETBuilt ParamModel ParamSpec AssembleModel AssembleSpec OTModel OTSpec OTThm FitModel FitSpec FitPropProofs Props_FT Props_LT Props_OT Props_ET.
From Verif Require AssembleNewton.
From Coquelicot Require Import Coquelicot.
From Coq Require Import Reals Lra Sorted.
From Verif Require Import NTModel NTSpec NTLike NTThm NTCon NTExample NBSpec.
Import List ListNotations.
Open Scope R_scope.
#[local] Existing Instance loose.

(** numpy's products and update, on reals *)
Definition dot_real (A : list (list R)) (v : list R) : res (list R) := Ok (map (fun k => row_dot A k v) (seq 0 (length A))).
Definition update_real (A : list (list R)) (s d : list R) : res (list (list R)) :=
  let dd := Rsum (fun l => nth l d 0 * nth l d 0) (seq 0 (length d)) in
  if Req_EM_T dd 0 then Raise ZeroDivisionError
  else Ok (map (fun k => map (fun l => nth l (nth k A []) 0 + (nth k s 0 - row_dot A k d) * nth l d 0 / dd) (seq 0 (length d))) (seq 0 (length A))).
(** scipy's pinvh, when the result is one of two given matrices *)
Definition inv_entry (A K : list (list R)) (i j : nat) : bool :=
  if Req_EM_T (Rsum (fun l => nth l (nth i A []) 0 * nth j (nth l K []) 0) (seq 0 (length A))) (if (i =? j)%nat then 1 else 0) then true else false.
Definition inv_check (A K : list (list R)) : bool :=
  (length K =? length A)%nat && forallb (fun i => forallb (inv_entry A K i) (seq 0 (length A))) (seq 0 (length A)).
Definition pinvh_real (K1 K2 : list (list R)) (A : list (list R)) : res (list (list R)) :=
  if inv_check A K1 then Ok K1 else if inv_check A K2 then Ok K2 else Raise LinAlgError.
Definition la_real (K1 K2 : list (list R)) : linalg := mkLA (checked []) (pinvh_real K1 K2) dot_real update_real.

Lemma nth_map_seq {A} (f : nat -> A) n k a : (k < n)%nat -> nth k (map f (seq 0 n)) a = f k.
Proof. intros Hk. rewrite (nth_indep _ a (f 0%nat)) by (rewrite map_length, seq_length; lia). rewrite (map_nth f), seq_nth by lia. reflexivity. Qed.
Lemma la_real_dot K1 K2 : exact_dot (la_real K1 K2).
Proof. intros A v r E. cbn in E. injection E as <-. split; [now rewrite map_length, seq_length|]. intros k Hk. now rewrite nth_map_seq. Qed.
Lemma la_real_update K1 K2 : exact_update (la_real K1 K2).
Proof.
  intros A s d A' E. cbn in E. unfold update_real in E. set (dd := Rsum (fun l => nth l d 0 * nth l d 0) (seq 0 (length d))) in *. cbn zeta in *. destruct (Req_EM_T dd 0) as [|Nz]; [discriminate|]. injection E as <-.
  split; [exact Nz|]. split; [now rewrite map_length, seq_length|]. intros k l Hk Hl. rewrite nth_map_seq by exact Hk. rewrite nth_map_seq by exact Hl. reflexivity.
Qed.
Lemma inv_check_ok A K : inv_check A K = true <-> inverse A K.
Proof.
  unfold inv_check, inverse. rewrite Bool.andb_true_iff, Nat.eqb_eq, forallb_forall. apply and_iff_compat_l. split.
  - intros F i j Hi Hj. specialize (F i). rewrite in_seq, forallb_forall in F. specialize (F ltac:(lia) j). rewrite in_seq in F. specialize (F ltac:(lia)). unfold inv_entry in F. destruct (Req_EM_T _ _); [assumption|discriminate].
  - intros F i Hi. apply in_seq in Hi. rewrite forallb_forall. intros j Hj. apply in_seq in Hj. unfold inv_entry. rewrite (F i j) by lia. destruct (Req_EM_T _ _); [reflexivity|contradiction].
Qed.
Lemma la_real_pinvh K1 K2 : always_inverse (la_real K1 K2).
Proof. intros A J. cbn. unfold pinvh_real. destruct (inv_check A K1) eqn:C1; [intros E; injection E as <-; now apply inv_check_ok|]. destruct (inv_check A K2) eqn:C2; [intros E; injection E as <-; now apply inv_check_ok|discriminate]. Qed.

Definition startu (u : R) : list (param R) := effects (ln 2 + ln u) (ln u) 0 0 0.
Lemma exp_startu u : 0 < u -> exp (ln 2 + ln u + 0) = 2 * u /\ exp (ln u + 0) = u.
Proof. intros H. rewrite !Rplus_0_r, exp_plus, !exp_ln by lra. auto. Qed.
Section values.
Variable g : R -> R.
Variable d : string -> option tensor.
Hypothesis dN : d "N"%string = data2 X4 N12 "N".
Hypothesis dX : d "X"%string = data2 X4 N12 "X".
Notation pen := (goal (glm g nil) d (([2; 3]%nat, []) : pst) nil).
Definition Hu (u : R) : list (list R) := [[- 6 * u; 0; - 2 * u; - 2 * u; 1]; [0; - 6 * u; - 2 * u; - 2 * u; 1]; [- 2 * u; - 2 * u; - 4 * u; 0; 0]; [- 2 * u; - 2 * u; 0; - 4 * u; 0]; [1; 1; 0; 0; 0]].
Definition Gu (u : R) : list R := [12 - 6 * u; 12 - 6 * u; 8 - 4 * u; 8 - 4 * u; ln 2 + ln u + ln u].
Lemma start_values u G H : 0 < u -> newton_system pen (sum_zero :: nil) (startu u) G H -> G = Gu u /\ H = Hu u.
Proof.
  intros Hu0 [Sz Gr Co He Bo Sy Cn]. change (n_free (startu u)) with 4%nat in *. cbn [length Nat.add] in Sz, Sy, Cn. destruct Sz as (LG & LH & LR).
  destruct (exp_startu u Hu0) as [E1 E2].
  assert (G0 : nth 0 G 0 = 12 - 6 * u) by (rewrite (uniq _ _ _ _ (Gr 0%nat 0%nat 0%nat eq_refl) (part00 g d dN dX (ln 2 + ln u) (ln u) 0 0 0)); unfold dc; rewrite ?E1, ?E2; ring).
  assert (G1 : nth 1 G 0 = 12 - 6 * u) by (rewrite (uniq _ _ _ _ (Gr 1%nat 0%nat 1%nat eq_refl) (part01 g d dN dX (ln 2 + ln u) (ln u) 0 0 0)); unfold dc; rewrite ?E1, ?E2; ring).
  assert (G2 : nth 2 G 0 = 8 - 4 * u) by (rewrite (uniq _ _ _ _ (Gr 2%nat 1%nat 0%nat eq_refl) (part10 g d dN dX (ln 2 + ln u) (ln u) 0 0 0)); unfold dc; rewrite ?E1, ?E2; ring).
  assert (G3 : nth 3 G 0 = 8 - 4 * u) by (rewrite (uniq _ _ _ _ (Gr 3%nat 1%nat 2%nat eq_refl) (part12 g d dN dX (ln 2 + ln u) (ln u) 0 0 0)); unfold dc; rewrite ?E1, ?E2; ring).
  assert (G4 : nth 4 G 0 = ln 2 + ln u + ln u) by (transitivity (con_value sum_zero (startu u)); [exact (Co 0%nat sum_zero eq_refl)|unfold startu; rewrite sum_value; ring]).
  assert (H00 : nth 0 (nth 0 H []) 0 = -6*u) by (rewrite (uniq _ _ _ _ (He 0%nat 0%nat 0%nat 0%nat 0%nat 0%nat eq_refl eq_refl) (h00_00 g d dN dX (ln 2 + ln u) (ln u) 0 0 0)); unfold hc; rewrite ?E1, ?E2; ring).
  assert (H01 : nth 1 (nth 0 H []) 0 = 0) by (rewrite (uniq _ _ _ _ (He 0%nat 1%nat 0%nat 0%nat 0%nat 1%nat eq_refl eq_refl) (h00_01 g d dN dX (ln 2 + ln u) (ln u) 0 0 0)); unfold hc; rewrite ?E1, ?E2; ring).
  assert (H02 : nth 2 (nth 0 H []) 0 = -2*u) by (rewrite (uniq _ _ _ _ (He 0%nat 2%nat 0%nat 0%nat 1%nat 0%nat eq_refl eq_refl) (h00_10 g d dN dX (ln 2 + ln u) (ln u) 0 0 0)); unfold hc; rewrite ?E1, ?E2; ring).
  assert (H03 : nth 3 (nth 0 H []) 0 = -2*u) by (rewrite (uniq _ _ _ _ (He 0%nat 3%nat 0%nat 0%nat 1%nat 2%nat eq_refl eq_refl) (h00_12 g d dN dX (ln 2 + ln u) (ln u) 0 0 0)); unfold hc; rewrite ?E1, ?E2; ring).
  assert (H10 : nth 0 (nth 1 H []) 0 = 0) by (rewrite (uniq _ _ _ _ (He 1%nat 0%nat 0%nat 1%nat 0%nat 0%nat eq_refl eq_refl) (h01_00 g d dN dX (ln 2 + ln u) (ln u) 0 0 0)); unfold hc; rewrite ?E1, ?E2; ring).
  assert (H11 : nth 1 (nth 1 H []) 0 = -6*u) by (rewrite (uniq _ _ _ _ (He 1%nat 1%nat 0%nat 1%nat 0%nat 1%nat eq_refl eq_refl) (h01_01 g d dN dX (ln 2 + ln u) (ln u) 0 0 0)); unfold hc; rewrite ?E1, ?E2; ring).
  assert (H12 : nth 2 (nth 1 H []) 0 = -2*u) by (rewrite (uniq _ _ _ _ (He 1%nat 2%nat 0%nat 1%nat 1%nat 0%nat eq_refl eq_refl) (h01_10 g d dN dX (ln 2 + ln u) (ln u) 0 0 0)); unfold hc; rewrite ?E1, ?E2; ring).
  assert (H13 : nth 3 (nth 1 H []) 0 = -2*u) by (rewrite (uniq _ _ _ _ (He 1%nat 3%nat 0%nat 1%nat 1%nat 2%nat eq_refl eq_refl) (h01_12 g d dN dX (ln 2 + ln u) (ln u) 0 0 0)); unfold hc; rewrite ?E1, ?E2; ring).
  assert (H20 : nth 0 (nth 2 H []) 0 = -2*u) by (rewrite (uniq _ _ _ _ (He 2%nat 0%nat 1%nat 0%nat 0%nat 0%nat eq_refl eq_refl) (h10_00 g d dN dX (ln 2 + ln u) (ln u) 0 0 0)); unfold hc; rewrite ?E1, ?E2; ring).
  assert (H21 : nth 1 (nth 2 H []) 0 = -2*u) by (rewrite (uniq _ _ _ _ (He 2%nat 1%nat 1%nat 0%nat 0%nat 1%nat eq_refl eq_refl) (h10_01 g d dN dX (ln 2 + ln u) (ln u) 0 0 0)); unfold hc; rewrite ?E1, ?E2; ring).
  assert (H22 : nth 2 (nth 2 H []) 0 = -4*u) by (rewrite (uniq _ _ _ _ (He 2%nat 2%nat 1%nat 0%nat 1%nat 0%nat eq_refl eq_refl) (h10_10 g d dN dX (ln 2 + ln u) (ln u) 0 0 0)); unfold hc; rewrite ?E1, ?E2; ring).
  assert (H23 : nth 3 (nth 2 H []) 0 = 0) by (rewrite (uniq _ _ _ _ (He 2%nat 3%nat 1%nat 0%nat 1%nat 2%nat eq_refl eq_refl) (h10_12 g d dN dX (ln 2 + ln u) (ln u) 0 0 0)); unfold hc; rewrite ?E1, ?E2; ring).
  assert (H30 : nth 0 (nth 3 H []) 0 = -2*u) by (rewrite (uniq _ _ _ _ (He 3%nat 0%nat 1%nat 2%nat 0%nat 0%nat eq_refl eq_refl) (h12_00 g d dN dX (ln 2 + ln u) (ln u) 0 0 0)); unfold hc; rewrite ?E1, ?E2; ring).
  assert (H31 : nth 1 (nth 3 H []) 0 = -2*u) by (rewrite (uniq _ _ _ _ (He 3%nat 1%nat 1%nat 2%nat 0%nat 1%nat eq_refl eq_refl) (h12_01 g d dN dX (ln 2 + ln u) (ln u) 0 0 0)); unfold hc; rewrite ?E1, ?E2; ring).
  assert (H32 : nth 2 (nth 3 H []) 0 = 0) by (rewrite (uniq _ _ _ _ (He 3%nat 2%nat 1%nat 2%nat 1%nat 0%nat eq_refl eq_refl) (h12_10 g d dN dX (ln 2 + ln u) (ln u) 0 0 0)); unfold hc; rewrite ?E1, ?E2; ring).
  assert (H33 : nth 3 (nth 3 H []) 0 = -4*u) by (rewrite (uniq _ _ _ _ (He 3%nat 3%nat 1%nat 2%nat 1%nat 2%nat eq_refl eq_refl) (h12_12 g d dN dX (ln 2 + ln u) (ln u) 0 0 0)); unfold hc; rewrite ?E1, ?E2; ring).
  assert (H40 : nth 0 (nth 4 H []) 0 = 1) by (exact (uniq _ _ _ _ (Bo 0%nat sum_zero 0%nat 0%nat 0%nat eq_refl eq_refl) (con_00 (ln 2 + ln u) (ln u) 0 0 0))).
  assert (H04 : nth 4 (nth 0 H []) 0 = 1) by (rewrite Sy by lia; exact H40).
  assert (H41 : nth 1 (nth 4 H []) 0 = 1) by (exact (uniq _ _ _ _ (Bo 0%nat sum_zero 1%nat 0%nat 1%nat eq_refl eq_refl) (con_01 (ln 2 + ln u) (ln u) 0 0 0))).
  assert (H14 : nth 4 (nth 1 H []) 0 = 1) by (rewrite Sy by lia; exact H41).
  assert (H42 : nth 2 (nth 4 H []) 0 = 0) by (exact (uniq _ _ _ _ (Bo 0%nat sum_zero 2%nat 1%nat 0%nat eq_refl eq_refl) (con_10 (ln 2 + ln u) (ln u) 0 0 0))).
  assert (H24 : nth 4 (nth 2 H []) 0 = 0) by (rewrite Sy by lia; exact H42).
  assert (H43 : nth 3 (nth 4 H []) 0 = 0) by (exact (uniq _ _ _ _ (Bo 0%nat sum_zero 3%nat 1%nat 2%nat eq_refl eq_refl) (con_12 (ln 2 + ln u) (ln u) 0 0 0))).
  assert (H34 : nth 4 (nth 3 H []) 0 = 0) by (rewrite Sy by lia; exact H43).
  assert (H44 : nth 4 (nth 4 H []) 0 = 0) by (apply Cn; lia).
  clear Gr Co He Bo Sy Cn. split.
  - unfold Gu. destruct G as [|? [|? [|? [|? [|? [|]]]]]]; try discriminate LG. cbn [nth] in *. congruence.
  - pose proof (LR 0%nat ltac:(lia)) as L0. pose proof (LR 1%nat ltac:(lia)) as L1. pose proof (LR 2%nat ltac:(lia)) as L2. pose proof (LR 3%nat ltac:(lia)) as L3. pose proof (LR 4%nat ltac:(lia)) as L4. clear LR G0 G1 G2 G3 G4.
    destruct H as [|a0 [|a1 [|a2 [|a3 [|a4 [|]]]]]]; try discriminate LH. cbn [nth] in *. unfold Hu.
    destruct a0 as [|? [|? [|? [|? [|? [|]]]]]]; try discriminate L0. destruct a1 as [|? [|? [|? [|? [|? [|]]]]]]; try discriminate L1. destruct a2 as [|? [|? [|? [|? [|? [|]]]]]]; try discriminate L2.
    destruct a3 as [|? [|? [|? [|? [|? [|]]]]]]; try discriminate L3. destruct a4 as [|? [|? [|? [|? [|? [|]]]]]]; try discriminate L4. cbn [nth] in *. congruence.
Qed.
End values.
Definition Ku (u : R) : list (list R) :=
  [[- 1 / (12 * u); 1 / (12 * u); 0; 0; 1 / 2]; [1 / (12 * u); - 1 / (12 * u); 0; 0; 1 / 2]; [0; 0; - 1 / (4 * u); 0; - 1 / 2]; [0; 0; 0; - 1 / (4 * u); - 1 / 2]; [1 / 2; 1 / 2; - 1 / 2; - 1 / 2; u]].
Lemma inverse_HK u : 0 < u -> inverse (Hu u) (Ku u) /\ inverse (Ku u) (Hu u).
Proof.
  intros Hu0. split; (split; [reflexivity|]); intros i j Hi Hj; change (length (Hu u)) with 5%nat in *; change (length (Ku u)) with 5%nat in *; unfold Rsum; cbn [seq map fold_right];
    destruct i as [|[|[|[|[|i]]]]]; try lia; destruct j as [|[|[|[|[|j]]]]]; try lia; cbn [Hu Ku nth Nat.eqb]; field; lra.
Qed.
Definition sr (u : R) : R := (ln 2 + 2 * ln u) / 2.
Definition sc (u : R) : R := - (2 - u) / u - (ln 2 + 2 * ln u) / 2.
Definition stepu (u : R) : list R := [sr u; sr u; sc u; sc u; 4 - 2 * u + u * (ln 2 + 2 * ln u)].
Definition endu (u : R) : list (param R) := effects (ln 2 + ln u + - sr u) (ln u + - sr u) (0 + - sc u) 0 (0 + - sc u).
Lemma dotu u : 0 < u -> dot_real (Ku u) (Gu u) = Ok (stepu u).
Proof.
  intros H. unfold dot_real, stepu. f_equal. change (length (Ku u)) with 5%nat. cbn [seq map]. unfold row_dot. change (length (Gu u)) with 5%nat. unfold Rsum. cbn [seq map fold_right Ku Gu nth]. unfold sr, sc.
  do 4 (f_equal; [field; lra|]). f_equal. field.
Qed.
Definition stateu (u : R) (h : option (list (list R))) (conv : bool) : state R (list (list R)) tensor := mkState (startu u) h conv (fun _ => None).
Section run.
Variables (g : R -> R) (u : R).
Hypothesis Hu0 : 0 < u.
Notation m2 := (glm g nil).
Notation la := (la_real (Ku u) (Hu u)).
Notation dat := (([2; 3]%nat, []) : pst).
Notation pen := (goal m2 d2 dat nil).
Lemma fpu : fit_problem (axes (startu u)) dat arrays m2 d2 (sum_zero :: nil) nil.
Proof. apply (glm_problem g X4 N12 d2); [exact d2_N|exact d2_X|now right]. Qed.
Lemma pinvh_H : la_pinvh la (Hu u) = Ok (Ku u).
Proof. cbn. unfold pinvh_real. rewrite (proj2 (inv_check_ok _ _) (proj1 (inverse_HK u Hu0))). reflexivity. Qed.
Lemma pinvh_K : exists h, la_pinvh la (Ku u) = Ok h.
Proof. cbn. unfold pinvh_real. destruct (inv_check (Ku u) (Ku u)); [eauto|]. rewrite (proj2 (inv_check_ok _ _) (proj2 (inverse_HK u Hu0))). eauto. Qed.
Theorem runu h conv : (h = None /\ conv = false) \/ (h = Some (Hu u) /\ conv = true) -> pen (endu u) <> 0 -> Rabs (pen (startu u) / pen (endu u) - 1) < 1 ->
  exists h', ml_fit m2 la 1 20 0 "Broyden" kw2 (stateu u h conv) = (EvTrial 1 (free_entries (endu u)) :: nil, mkState (endu u) (Some h') true d2, Ok true).
Proof.
  intros Hc Nz Cr. destruct pinvh_K as (h' & EK). exists h'. unfold ml_fit, fit.
  change (load_data (stateu u h conv) (data_args (class_dim (ml_class m2)) kw2)) with (mkState (startu u) h conv d2, Ok tt : res unit). cbn iota beta.
  change (ParamModel.flat_params (s_params (mkState (startu u) h conv d2))) with (Ok [ln 2 + ln u; ln u; 0; 0] : res (list R)). cbn iota beta.
  change (String.eqb (lower "Broyden") "newton") with false. change (String.eqb (lower "Broyden") "broyden") with true. cbn iota. change (Z.to_nat 20) with 20%nat.
  destruct (point_step _ _ m2 la d2 _ _ _ fpu tot2 (startu u) (effects_ok _ _ _ _ _) eq_refl (all_arrays _)) as (y & der & hs & G & H & Ev & Ob & Gr & He & NS).
  destruct (start_values g d2 d2_N d2_X u G H Hu0 NS) as [-> ->].
  unfold broyden. cbn [s_data s_params]. rewrite (point_g _ _ m2 la d2 _ _ _ fpu tot2 (startu u) (effects_ok _ _ _ _ _) eq_refl (all_arrays _)). rewrite (total_9 d2 d2_N). change (0 <? 0)%nat with false. cbn iota.
  unfold broyden_try. cbn [s_data s_params s_conv s_hess]. rewrite Ev. cbn [rbind]. rewrite Gr. cbn [rbind]. rewrite He. cbn [rbind].
  assert (Q : forall s2, s_params s2 = startu u -> s_data s2 = d2 -> broyden_loop (fit_of m2 la) 0 1 4 s2 20 (Ku u) (pen (startu u) / 9) (Gu u) [ln 2 + ln u; ln u; 0; 0] =
    (EvTrial 1 (free_entries (endu u)) :: nil, mkState (endu u) (Some h') true d2, Ok true)).
  { intros s2 P2 D2. cbn [broyden_loop]. rewrite P2, D2. change (m_dot (fit_of m2 la) (Ku u) (Gu u)) with (dot_real (Ku u) (Gu u)). rewrite (dotu u Hu0). cbn [rbind].
    change (v_iadd (fit_of m2 la) [ln 2 + ln u; ln u; 0; 0] (firstn 4 (map (f_neg (fit_of m2 la)) (stepu u)))) with (Ok (free_entries (endu u)) : res (list R)). cbn [rbind].
    change (reshape_params (startu u) (free_entries (endu u))) with (Ok (endu u) : res (list (param R))). cbn [rbind].
    rewrite (point_g _ _ m2 la d2 _ _ _ fpu tot2 (endu u) (effects_ok _ _ _ _ _) eq_refl (all_arrays _)). rewrite (total_9 d2 d2_N). change (0 <? 0)%nat with false. cbn iota.
    unfold criterion. cbn [fit_of f_div f_lt f_abs f_sub f_one]. unfold Rdiv_py. destruct (Req_EM_T _ 0) as [Z|_]; [exfalso; apply Nz; lra|]. cbn [rbind]. unfold Rlt_b.
    match goal with |- context [Rlt_dec ?a ?b] => destruct (Rlt_dec a b) as [_|N] end.
    - change (sp_pinvh (fit_of m2 la) (Ku u)) with (la_pinvh la (Ku u)). rewrite EK. unfold set_conv, set_hess, set_params. cbn [s_data s_params]. rewrite D2. reflexivity.
    - exfalso. apply N. replace (pen (startu u) / 9 / (pen (endu u) / 9)) with (pen (startu u) / pen (endu u)); [exact Cr|]. field. exact Nz. }
  assert (Fin : forall s2, s_params s2 = startu u -> s_data s2 = d2 -> s_hess s2 = Some (Hu u) ->
    match s_hess s2 with None => ([], s2, Raise AttributeError) | Some h => match (let! J := sp_pinvh (fit_of m2 la) h in let! i1 := cut_index (n_constraints (fit_of m2 la)) (length (Gu u)) in Ok (J, i1)) with
        | Raise e => ([], s2, Raise e) | Ok (J, i1) => broyden_loop (fit_of m2 la) 0 1 i1 s2 20 J (pen (startu u) / 9) (Gu u) [ln 2 + ln u; ln u; 0; 0] end end =
    (EvTrial 1 (free_entries (endu u)) :: nil, mkState (endu u) (Some h') true d2, Ok true)).
  { intros s2 P2 D2 H2. rewrite H2. change (sp_pinvh (fit_of m2 la) (Hu u)) with (la_pinvh la (Hu u)). rewrite pinvh_H. cbn [rbind]. change (cut_index (n_constraints (fit_of m2 la)) (length (Gu u))) with (Ok 4%nat : res nat). cbn [rbind]. now apply Q. }
  destruct Hc as [[-> ->]|[-> ->]]; cbn [andb].
  - rewrite (Fin (set_hess (mkState (startu u) None false d2) (Hu u)) eq_refl eq_refl eq_refl). reflexivity.
  - change (m_nrows (fit_of m2 la) (Hu u) =? length (Gu u))%nat with true. cbn iota. rewrite (Fin (mkState (startu u) (Some (Hu u)) true d2) eq_refl eq_refl eq_refl). reflexivity.
Qed.
(** values *)
Lemma pen_startu : pen (startu u) = 12 * ln 2 + 24 * ln u - 12 * u - 6 * g 5.
Proof. unfold startu. rewrite (pen_P g d2 d2_N d2_X). unfold P, cellv. destruct (exp_startu u Hu0) as [-> ->]. ring. Qed.
Lemma pen_endu : pen (endu u) = 8 * (2 * (2 - u) / u + ln 2 + 2 * ln u) - 8 * (u * exp ((2 - u) / u)) - 2 * exp (ln 2 / 2) - 6 * g 5.
Proof.
  unfold endu. rewrite (pen_P g d2 d2_N d2_X). unfold P, cellv, sr, sc. destruct half_ln as (E & _ & E').
  replace (ln 2 + ln u + - ((ln 2 + 2 * ln u) / 2) + (0 + - (- (2 - u) / u - (ln 2 + 2 * ln u) / 2))) with ((2 - u) / u + (ln 2 + ln u)) by (field; lra).
  replace (ln u + - ((ln 2 + 2 * ln u) / 2) + (0 + - (- (2 - u) / u - (ln 2 + 2 * ln u) / 2))) with ((2 - u) / u + ln u) by (field; lra).
  replace (ln 2 + ln u + - ((ln 2 + 2 * ln u) / 2) + 0) with (ln 2 / 2) by field. replace (ln u + - ((ln 2 + 2 * ln u) / 2) + 0) with (- (ln 2 / 2)) by field.
  rewrite !exp_plus, !exp_ln, E' by lra. field. lra.
Qed.
Lemma con_endu : con_value sum_zero (startu u) = ln 2 + 2 * ln u /\ con_value sum_zero (endu u) = 0.
Proof. unfold startu, endu. rewrite !sum_value. unfold sr. split; field. Qed.
End run.
(** u = 1: increase *)
Lemma up1 g : 3 <= g 5 -> let pen := goal (glm g nil) d2 (([2; 3]%nat, []) : pst) nil in
  pen (startu 1) < pen (endu 1) /\ pen (endu 1) <> 0 /\ Rabs (pen (startu 1) / pen (endu 1) - 1) < 1.
Proof.
  intros Hg pen. unfold pen. rewrite pen_startu, pen_endu by lra. rewrite ln_1. replace ((2 - 1) / 1) with 1 by field. replace (2 * (2 - 1) / 1) with 2 by field.
  destruct exp1_bounds as [E1 E2]. destruct ln2_bounds as [L1 L2]. destruct half_ln as (S & S0 & _).
  assert (S2 : 1 <= exp (ln 2 / 2) <= 1.4143) by nra. set (q := exp (ln 2 / 2)) in *. set (e := exp 1) in *. set (l := ln 2) in *. clearbody q e l.
  set (b := 8 * _ - _ - _ - _). set (a := 12 * l + _ - _ - _). assert (Hab : a < b) by (unfold a, b; lra). assert (H2 : 2 * b < a) by (unfold a, b; lra). assert (Hb : b < 0) by (unfold b; lra). clearbody a b.
  split; [exact Hab|]. split; [lra|]. replace (a / b - 1) with ((b - a) / - b) by (field; lra). rewrite Rabs_right.
  - apply (Rmult_lt_reg_r (- b)); [lra|]. unfold Rdiv. rewrite Rmult_assoc, Rinv_l by lra. lra.
  - apply Rle_ge. apply Rmult_le_pos; [lra|]. left. apply Rinv_0_lt_compat. lra.
Qed.
(** u = 1/4: decrease *)
Lemma down4 g : 0 <= g 5 -> let pen := goal (glm g nil) d2 (([2; 3]%nat, []) : pst) nil in
  pen (endu (1 / 4)) < pen (startu (1 / 4)) - 90 /\ pen (endu (1 / 4)) <> 0 /\ Rabs (pen (startu (1 / 4)) / pen (endu (1 / 4)) - 1) < 1.
Proof.
  intros Hg pen. unfold pen. rewrite pen_startu, pen_endu by lra.
  assert (Eq : ln (1 / 4) = - 2 * ln 2). { replace (1 / 4) with (/ (2 * 2)) by field. rewrite ln_Rinv by lra. rewrite ln_mult by lra. ring. }
  rewrite Eq. replace ((2 - 1 / 4) / (1 / 4)) with 7 by field. replace (2 * (2 - 1 / 4) / (1 / 4)) with 14 by field.
  assert (E7 : 128 <= exp 7). { replace 7 with (INR 7 * 1) by (cbn; lra). rewrite exp_pow. destruct exp1_bounds as [E1 _]. eapply Rle_trans; [|apply pow_incr; split; [|exact E1]]; lra. }
  destruct ln2_bounds as [L1 L2]. destruct half_ln as (S & S0 & _). set (q := exp (ln 2 / 2)) in *. set (e := exp 7) in *. set (l := ln 2) in *. clearbody q e l.
  set (b := 8 * _ - _ - _ - _). set (a := 12 * l + _ - _ - _). assert (Hab : b < a - 90) by (unfold a, b; lra). assert (Ha : a < 0) by (unfold a; lra). clearbody a b.
  split; [exact Hab|]. split; [lra|]. replace (a / b - 1) with (- ((b - a) / b)) by (field; lra). rewrite Rabs_Ropp, Rabs_right.
  - apply (Rmult_lt_reg_r (- b)); [lra|]. unfold Rdiv. replace ((b - a) * / b * - b) with (- (b - a) * (/ b * b)) by ring. rewrite Rinv_l by lra. lra.
  - apply Rle_ge. replace ((b - a) / b) with ((a - b) * / - b) by (field; lra). apply Rmult_le_pos; [lra|]. left. apply Rinv_0_lt_compat. lra.
Qed.
