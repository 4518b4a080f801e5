From Coq Require Import Reals List Lra Lia Psatz.
From Coquelicot Require Import Coquelicot.
From Verif Require Import Prelude AnalyticSpec CopulaModel CopulaProofs.
Import List ListNotations.
Local Open Scope R_scope.

(** ---- AkiMikhailHaq ---- *)
Section AMH.
Variable rho : R.
Hypothesis Hr : -1 <= rho <= 1.
Lemma amh_grounded : grounded (amh rho).
Proof. intros u Hu. unfold amh, Rdiv. split; ring. Qed.
Lemma amh_margins : uniform_margins (amh rho).
Proof. intros u Hu. unfold amh. split; field; lra. Qed.
Lemma amh_den_pos u v : 0 < u <= 1 -> 0 <= v <= 1 -> 0 < 1 - rho * (1 - u) * (1 - v).
Proof.
  intros Hu Hv.
  assert (H : (1 - u) * (1 - v) <= 1 - u) by nra. assert (H0 : 0 <= (1 - u) * (1 - v)) by nra.
  rewrite Rmult_assoc. set (w := (1 - u) * (1 - v)) in *. clearbody w. nra.
Qed.
(** Difference in [u]: a Möbius map. *)
Lemma amh_diff u1 u2 v : 0 < u1 <= 1 -> 0 < u2 <= 1 -> 0 <= v <= 1 ->
  amh rho u2 v - amh rho u1 v =
  (u2 - u1) * (v * (1 - rho * (1 - v)) / ((1 - rho * (1 - u1) * (1 - v)) * (1 - rho * (1 - u2) * (1 - v)))).
Proof.
  intros H1 H2 Hv. pose proof (amh_den_pos u1 v H1 Hv). pose proof (amh_den_pos u2 v H2 Hv).
  unfold amh. field. lra.
Qed.
Lemma mono_frac a b c d : 0 <= a -> 0 < b -> 0 < d -> a * d <= c * b -> a / b <= c / d.
Proof.
  intros Ha Hb Hd H. apply Rmult_le_reg_r with (b * d); [now apply Rmult_lt_0_compat|].
  replace (a / b * (b * d)) with (a * d) by (field; lra). replace (c / d * (b * d)) with (c * b) by (field; lra). exact H.
Qed.
Lemma frac_nonneg a b : 0 <= a -> 0 < b -> 0 <= a / b.
Proof. intros. apply Rmult_le_pos; [assumption|]. now apply Rlt_le, Rinv_0_lt_compat. Qed.
Lemma amh_slope_mono u1 u2 v1 v2 : 0 < u1 <= 1 -> 0 < u2 <= 1 -> 0 <= v1 <= v2 -> v2 <= 1 ->
  v1 * (1 - rho * (1 - v1)) / ((1 - rho * (1 - u1) * (1 - v1)) * (1 - rho * (1 - u2) * (1 - v1))) <=
  v2 * (1 - rho * (1 - v2)) / ((1 - rho * (1 - u1) * (1 - v2)) * (1 - rho * (1 - u2) * (1 - v2))).
Proof.
  intros H1 H2 Hv Hv2.
  pose proof (amh_den_pos u1 v1 H1 ltac:(lra)) as P11. pose proof (amh_den_pos u1 v2 H1 ltac:(lra)) as P12.
  pose proof (amh_den_pos u2 v1 H2 ltac:(lra)) as P21. pose proof (amh_den_pos u2 v2 H2 ltac:(lra)) as P22.
  assert (A1 : 0 <= 1 - rho * (1 - v1)) by nra. assert (A2 : 0 <= 1 - rho * (1 - v2)) by nra.
  destruct (Rle_dec 0 rho) as [Hp|Hn].
  - (* two non-negative increasing factors *)
    replace (v1 * (1 - rho * (1 - v1)) / ((1 - rho * (1 - u1) * (1 - v1)) * (1 - rho * (1 - u2) * (1 - v1))))
      with ((1 - rho * (1 - v1)) / (1 - rho * (1 - u1) * (1 - v1)) * (v1 / (1 - rho * (1 - u2) * (1 - v1)))) by (field; lra).
    replace (v2 * (1 - rho * (1 - v2)) / ((1 - rho * (1 - u1) * (1 - v2)) * (1 - rho * (1 - u2) * (1 - v2))))
      with ((1 - rho * (1 - v2)) / (1 - rho * (1 - u1) * (1 - v2)) * (v2 / (1 - rho * (1 - u2) * (1 - v2)))) by (field; lra).
    apply Rmult_le_compat.
    + apply frac_nonneg; assumption.
    + apply frac_nonneg; lra.
    + apply mono_frac; try assumption.
      assert (E : (1 - rho * (1 - v2)) * (1 - rho * (1 - u1) * (1 - v1)) - (1 - rho * (1 - v1)) * (1 - rho * (1 - u1) * (1 - v2)) = rho * u1 * (v2 - v1)) by ring.
      assert (0 <= rho * u1 * (v2 - v1)) by (repeat apply Rmult_le_pos; lra). lra.
    + apply mono_frac; try lra.
      assert (E : v2 * (1 - rho * (1 - u2) * (1 - v1)) - v1 * (1 - rho * (1 - u2) * (1 - v2)) = (v2 - v1) * (1 - rho * (1 - u2))) by ring.
      assert (0 <= (v2 - v1) * (1 - rho * (1 - u2))) by (apply Rmult_le_pos; nra). lra.
  - (* numerator increasing, denominators decreasing *)
    assert (Hn' : rho < 0) by lra.
    apply mono_frac; [apply Rmult_le_pos; lra|apply Rmult_lt_0_compat; assumption|apply Rmult_lt_0_compat; assumption|].
    apply Rmult_le_compat.
    + apply Rmult_le_pos; lra.
    + apply Rmult_le_pos; lra.
    + assert (E : v2 * (1 - rho * (1 - v2)) - v1 * (1 - rho * (1 - v1)) = (v2 - v1) * (1 - rho + rho * (v1 + v2))) by ring.
      assert (0 <= 1 - rho + rho * (v1 + v2)) by nra.
      assert (0 <= (v2 - v1) * (1 - rho + rho * (v1 + v2))) by (apply Rmult_le_pos; lra). lra.
    + apply Rmult_le_compat; try lra.
      * assert (0 <= - rho * (1 - u1) * (v2 - v1)) by (repeat apply Rmult_le_pos; lra). lra.
      * assert (0 <= - rho * (1 - u2) * (v2 - v1)) by (repeat apply Rmult_le_pos; lra). lra.
Qed.
Lemma amh_slope_nonneg u1 u2 v : 0 < u1 <= 1 -> 0 < u2 <= 1 -> 0 <= v <= 1 ->
  0 <= v * (1 - rho * (1 - v)) / ((1 - rho * (1 - u1) * (1 - v)) * (1 - rho * (1 - u2) * (1 - v))).
Proof.
  intros H1 H2 Hv. pose proof (amh_den_pos u1 v H1 Hv). pose proof (amh_den_pos u2 v H2 Hv).
  apply frac_nonneg; [apply Rmult_le_pos; [lra|nra]|now apply Rmult_lt_0_compat].
Qed.
(** Monotone in v, for u > 0. *)
Lemma amh_mono_v u v1 v2 : 0 < u <= 1 -> 0 <= v1 <= v2 -> v2 <= 1 -> amh rho u v1 <= amh rho u v2.
Proof.
  intros Hu Hv Hv2. unfold amh.
  pose proof (amh_den_pos u v1 Hu ltac:(lra)). pose proof (amh_den_pos u v2 Hu ltac:(lra)).
  apply mono_frac; [apply Rmult_le_pos; lra|assumption|assumption|].
  assert (E : u * v2 * (1 - rho * (1 - u) * (1 - v1)) - u * v1 * (1 - rho * (1 - u) * (1 - v2)) = u * ((v2 - v1) * (1 - rho * (1 - u)))) by ring.
  assert (0 <= u * ((v2 - v1) * (1 - rho * (1 - u)))) by (apply Rmult_le_pos; [lra|]; apply Rmult_le_pos; nra). lra.
Qed.
Lemma amh_two_increasing : two_increasing (amh rho).
Proof.
  intros u1 u2 v1 v2 Hu Hu2 Hv Hv2.
  destruct (Req_dec u2 0) as [->|Hu20].
  { assert (u1 = 0) by lra. subst. lra. }
  destruct (Req_dec u1 0) as [->|Hu10].
  { rewrite !(proj1 (amh_grounded _ (conj (proj1 Hv) (Rle_trans _ _ _ (proj2 Hv) Hv2)))).
    rewrite !(proj1 (amh_grounded v2 ltac:(lra))).
    pose proof (amh_mono_v u2 v1 v2 ltac:(lra) Hv Hv2). lra. }
  assert (D2 := amh_diff u1 u2 v2 ltac:(lra) ltac:(lra) ltac:(lra)).
  assert (D1 := amh_diff u1 u2 v1 ltac:(lra) ltac:(lra) ltac:(lra)).
  pose proof (amh_slope_mono u1 u2 v1 v2 ltac:(lra) ltac:(lra) Hv Hv2) as S.
  replace (amh rho u2 v2 - amh rho u2 v1 - (amh rho u1 v2 - amh rho u1 v1)) with
    ((amh rho u2 v2 - amh rho u1 v2) - (amh rho u2 v1 - amh rho u1 v1)) by ring.
  rewrite D2, D1, <- Rmult_minus_distr_l. apply Rmult_le_pos; lra.
Qed.
End AMH.

(** ---- Frank ---- *)
Section Frank.
Variable a : R.
Hypothesis Ha : a <> 0.
Let al (u : R) := exp (- a * u) - 1.
Let D := exp (- a) - 1.
Let K (u v : R) := 1 + al u * al v / D.
Lemma D_ne : D <> 0.
Proof.
  unfold D. intros H. assert (E : exp (- a) = exp 0) by (rewrite exp_0; lra). apply exp_inv in E. lra.
Qed.
Lemma al0 : al 0 = 0.
Proof. unfold al. rewrite Rmult_0_r, exp_0. lra. Qed.
Lemma al1 : al 1 = D.
Proof. unfold al, D. now rewrite Rmult_1_r. Qed.
Lemma frank_K u v : frank a u v = (-1 / a) * ln (K u v).
Proof. reflexivity. Qed.
Lemma frank_grounded : grounded (frank a).
Proof.
  intros u Hu. rewrite !frank_K. unfold K. rewrite !al0.
  replace (1 + 0 * al u / D) with 1 by (field; apply D_ne). replace (1 + al u * 0 / D) with 1 by (field; apply D_ne).
  rewrite ln_1. split; ring.
Qed.
Lemma frank_margins : uniform_margins (frank a).
Proof.
  intros u Hu. rewrite !frank_K. unfold K. rewrite !al1.
  replace (1 + al u * D / D) with (exp (- a * u)) by (unfold al; field; apply D_ne).
  replace (1 + D * al u / D) with (exp (- a * u)) by (unfold al; field; apply D_ne).
  rewrite ln_exp. split; field; exact Ha.
Qed.
Lemma exp_mono x y : x <= y -> exp x <= exp y.
Proof. intros [H| ->]; [left; now apply exp_increasing|right; reflexivity]. Qed.
Lemma al_pos_case u : 0 < a -> 0 <= u <= 1 -> D <= al u <= 0.
Proof.
  intros Hp Hu. unfold D, al. split.
  - assert (exp (- a) <= exp (- a * u)) by (apply exp_mono; nra). lra.
  - assert (exp (- a * u) <= exp 0) by (apply exp_mono; nra). rewrite exp_0 in H. lra.
Qed.
Lemma al_neg_case u : a < 0 -> 0 <= u -> 0 <= al u.
Proof.
  intros Hp Hu. unfold al. assert (exp 0 <= exp (- a * u)) by (apply exp_mono; nra). rewrite exp_0 in H. lra.
Qed.
Lemma K_pos u v : 0 <= u <= 1 -> 0 <= v <= 1 -> 0 < K u v.
Proof.
  intros Hu Hv. unfold K. destruct (Rtotal_order a 0) as [Hn|[He|Hp]]; [|contradiction|].
  - pose proof (al_neg_case u Hn ltac:(lra)). pose proof (al_neg_case v Hn ltac:(lra)).
    assert (HD : 0 < D). { pose proof (al_neg_case 1 Hn ltac:(lra)). rewrite al1 in H1. pose proof D_ne. lra. }
    assert (0 <= al u * al v / D) by (apply frac_nonneg; [now apply Rmult_le_pos|exact HD]). lra.
  - pose proof (al_pos_case u Hp Hu) as [U1 U2]. pose proof (al_pos_case v Hp Hv) as [V1 V2].
    assert (HD : D < 0). { pose proof (al_pos_case 1 Hp ltac:(lra)). pose proof D_ne. lra. }
    assert (HE : 0 < 1 + D) by (unfold D; pose proof (exp_pos (- a)); lra).
    assert (al u * al v <= D * D) by nra.
    assert (D <= al u * al v / D).
    { apply Rmult_le_reg_r with (- D); [lra|]. replace (al u * al v / D * - D) with (- (al u * al v)) by (field; lra). nra. }
    lra.
Qed.
Lemma frank_two_increasing : two_increasing (frank a).
Proof.
  intros u1 u2 v1 v2 Hu Hu2 Hv Hv2. rewrite !frank_K.
  pose proof (K_pos u1 v1 ltac:(lra) ltac:(lra)) as P11. pose proof (K_pos u1 v2 ltac:(lra) ltac:(lra)) as P12.
  pose proof (K_pos u2 v1 ltac:(lra) ltac:(lra)) as P21. pose proof (K_pos u2 v2 ltac:(lra) ltac:(lra)) as P22.
  replace (-1 / a * ln (K u2 v2) - -1 / a * ln (K u2 v1) - (-1 / a * ln (K u1 v2) - -1 / a * ln (K u1 v1)))
    with ((/ a) * (ln (K u2 v1 * K u1 v2) - ln (K u2 v2 * K u1 v1))).
  2:{ rewrite !ln_mult by assumption. field. exact Ha. }
  assert (E : K u2 v1 * K u1 v2 - K u2 v2 * K u1 v1 = - ((al u2 - al u1) * (al v2 - al v1)) / D).
  { unfold K. field. apply D_ne. }
  assert (HP1 : 0 < K u2 v1 * K u1 v2) by now apply Rmult_lt_0_compat.
  assert (HP2 : 0 < K u2 v2 * K u1 v1) by now apply Rmult_lt_0_compat.
  destruct (Rtotal_order a 0) as [Hn|[He|Hp]]; [|contradiction|].
  - assert (HD : 0 < D). { pose proof (al_neg_case 1 Hn ltac:(lra)). rewrite al1 in H. pose proof D_ne. lra. }
    assert (M : forall s t, s <= t -> al s <= al t) by (intros; unfold al; apply Rplus_le_compat_r, exp_mono; nra).
    pose proof (M u1 u2 ltac:(lra)). pose proof (M v1 v2 ltac:(lra)).
    assert (0 <= (al u2 - al u1) * (al v2 - al v1) / D) by (apply frac_nonneg; [apply Rmult_le_pos; lra|lra]).
    assert (HL : K u2 v1 * K u1 v2 <= K u2 v2 * K u1 v1) by (unfold Rdiv in *; rewrite Ropp_mult_distr_l_reverse in E; lra).
    assert (ln (K u2 v1 * K u1 v2) <= ln (K u2 v2 * K u1 v1)) by (apply ln_le; assumption).
    assert (/ a < 0) by now apply Rinv_lt_0_compat. nra.
  - assert (HD : D < 0). { pose proof (al_pos_case 1 Hp ltac:(lra)). pose proof D_ne. lra. }
    assert (M : forall s t, s <= t -> al t <= al s) by (intros; unfold al; apply Rplus_le_compat_r, exp_mono; nra).
    pose proof (M u1 u2 ltac:(lra)). pose proof (M v1 v2 ltac:(lra)).
    assert (HN : 0 <= (al u2 - al u1) * (al v2 - al v1)) by nra.
    assert (0 <= - ((al u2 - al u1) * (al v2 - al v1)) / D).
    { unfold Rdiv. assert (/ D < 0) by now apply Rinv_lt_0_compat. nra. }
    assert (HL : K u2 v2 * K u1 v1 <= K u2 v1 * K u1 v2) by lra.
    assert (ln (K u2 v2 * K u1 v1) <= ln (K u2 v1 * K u1 v2)) by (apply ln_le; assumption).
    assert (0 < / a) by now apply Rinv_0_lt_compat. nra.
Qed.
End Frank.

(** ---- Archimedean copulas: convex decrements ---- *)
Lemma convex_decr (h h' : R -> R) (lo p s t : R) : lo <= p -> 0 <= s -> 0 <= t ->
  (forall z, lo < z -> is_derive h z (h' z)) ->
  (forall z, lo <= z -> continuity_pt h z) ->
  (forall z w, lo < z -> z <= w -> h' z <= h' w) ->
  h (p + t) - h (p + t + s) <= h p - h (p + s).
Proof.
  intros Hp Hs Ht Hd Hc Hm.
  set (g := fun z => h z - h (z + s)).
  set (dg := fun z => if Rle_dec z p then 0 else h' z - h' (z + s)).
  destruct (MVT_gen g p (p + t) dg) as (c & Hc1 & Hc2).
  - intros z Hz. rewrite Rmin_left, Rmax_right in Hz by lra. unfold g, dg. destruct (Rle_dec z p); [lra|].
    apply D_minus; [apply Hd; lra|]. eapply is_derive_eq.
    + apply (D_comp h (fun z => z + s)); [apply Hd; lra|]. apply D_plus; [apply D_id|apply D_const].
    + ring.
  - intros z Hz. rewrite Rmin_left, Rmax_right in Hz by lra. unfold g.
    apply continuity_pt_minus; [apply Hc; lra|].
    apply (continuity_pt_comp (fun z => z + s) h); [|apply Hc; lra].
    apply continuity_pt_plus; [apply derivable_continuous_pt, derivable_pt_id|apply continuity_pt_const; intros ? ?; reflexivity].
  - unfold g in Hc2. assert (dg c <= 0).
    { unfold dg. destruct (Rle_dec c p); [lra|]. pose proof (Hm c (c + s) ltac:(lra) ltac:(lra)). lra. }
    assert (dg c * (p + t - p) <= 0) by nra. lra.
Qed.
Lemma derive_cont (h : R -> R) z l : is_derive h z l -> continuity_pt h z.
Proof. intros H. apply derivable_continuous_pt. exists l. now apply is_derive_Reals. Qed.
Lemma Rpower_pos x a : 0 < Rpower x a.
Proof. apply exp_pos. Qed.
Lemma Rpower_anti x y a : 0 < x <= y -> 0 <= a -> Rpower y (- a) <= Rpower x (- a).
Proof.
  intros [Hx Hxy] Ha. unfold Rpower. apply exp_mono. assert (ln x <= ln y) by (apply ln_le; assumption). nra.
Qed.
Lemma Rpower_mono x y a : 0 < x <= y -> 0 <= a -> Rpower x a <= Rpower y a.
Proof.
  intros [Hx Hxy] Ha. unfold Rpower. apply exp_mono. assert (ln x <= ln y) by (apply ln_le; assumption). nra.
Qed.
Lemma D_Rpower z b : 0 < z -> is_derive (fun s => Rpower s b) z (b * Rpower z (b - 1)).
Proof.
  intros Hz. unfold Rpower. eapply is_derive_eq.
  - apply (D_exp (fun s => b * ln s)). apply D_scal. apply (D_ln (fun s => s)); [exact Hz|apply D_id].
  - replace ((b - 1) * ln z) with (b * ln z + - ln z) by ring. rewrite exp_plus, exp_Ropp, exp_ln by exact Hz. ring.
Qed.
Lemma Rpower_1_base a : Rpower 1 a = 1.
Proof. unfold Rpower. rewrite ln_1, Rmult_0_r. apply exp_0. Qed.

Section Clayton.
Variable a : R.
Hypothesis Ha : 0 < a.
Let f u := Rpower u (- a).
Let h z := Rpower z (-1 / a).
Lemma clayton_in u v : 0 < u -> 0 < v -> clayton a u v = h (f u + f v - 1).
Proof. intros. unfold clayton. destruct (Rle_dec u 0); [lra|]. destruct (Rle_dec v 0); [lra|]. reflexivity. Qed.
Lemma clayton_0l v : clayton a 0 v = 0.
Proof. unfold clayton. destruct (Rle_dec 0 0); [reflexivity|lra]. Qed.
Lemma clayton_0r u : clayton a u 0 = 0.
Proof. unfold clayton. destruct (Rle_dec u 0); [reflexivity|]. destruct (Rle_dec 0 0); [reflexivity|lra]. Qed.
Lemma f_ge1 u : 0 < u <= 1 -> 1 <= f u.
Proof. intros Hu. unfold f. rewrite <- (Rpower_1_base (- a)). apply Rpower_anti; lra. Qed.
Lemma f_anti u v : 0 < u <= v -> f v <= f u.
Proof. intros. apply Rpower_anti; lra. Qed.
Lemma f1 : f 1 = 1.
Proof. apply Rpower_1_base. Qed.
Lemma h_f u : 0 < u -> h (f u) = u.
Proof. intros Hu. unfold h, f. rewrite Rpower_mult. replace (- a * (-1 / a)) with 1 by (field; lra). now apply Rpower_1. Qed.
Lemma neg_inv : -1 / a = - (1 / a).
Proof. field. lra. Qed.
Lemma h_anti x y : 0 < x <= y -> h y <= h x.
Proof. intros H. unfold h. rewrite neg_inv. apply Rpower_anti; [exact H|]. left. apply Rdiv_lt_0_compat; lra. Qed.
Lemma clayton_grounded : grounded (clayton a).
Proof. intros u _. split; [apply clayton_0l|apply clayton_0r]. Qed.
Lemma clayton_margins : uniform_margins (clayton a).
Proof.
  intros u [[Hu|<-] Hu1]; [|split; [apply clayton_0l|apply clayton_0r]].
  rewrite !clayton_in by lra. rewrite f1.
  replace (f u + 1 - 1) with (f u) by ring. replace (1 + f u - 1) with (f u) by ring. rewrite h_f by exact Hu. split; reflexivity.
Qed.
Lemma clayton_nonneg_v u v1 v2 : 0 <= u <= 1 -> 0 <= v1 <= v2 -> v2 <= 1 -> clayton a u v1 <= clayton a u v2.
Proof.
  intros [[Hu|<-] Hu1] [[Hv1|<-] Hv] Hv2; rewrite ?clayton_0l, ?clayton_0r; try lra.
  - rewrite !clayton_in by lra. apply h_anti. pose proof (f_anti v1 v2 ltac:(lra)).
    pose proof (f_ge1 u ltac:(lra)). pose proof (f_ge1 v2 ltac:(lra)). lra.
  - destruct (Rle_lt_or_eq_dec 0 v2 Hv) as [H|<-]; [|rewrite clayton_0r; lra].
    rewrite clayton_in by lra. left. apply Rpower_pos.
Qed.
Lemma clayton_sym u v : clayton a u v = clayton a v u.
Proof.
  unfold clayton. destruct (Rle_dec u 0), (Rle_dec v 0); try reflexivity.
  replace (Rpower u (- a) + Rpower v (- a) - 1) with (Rpower v (- a) + Rpower u (- a) - 1) by ring. reflexivity.
Qed.
Lemma clayton_two_increasing : two_increasing (clayton a).
Proof.
  intros u1 u2 v1 v2 [[Hu1|<-] Hu] Hu2 [[Hv1|<-] Hv] Hv2.
  - rewrite !clayton_in by lra.
    pose proof (f_ge1 u2 ltac:(lra)). pose proof (f_ge1 v2 ltac:(lra)).
    pose proof (f_anti u1 u2 ltac:(lra)). pose proof (f_anti v1 v2 ltac:(lra)).
    pose proof (convex_decr h (fun z => (-1 / a) * Rpower z (-1 / a - 1)) 0 (f u2 + f v2 - 1) (f v1 - f v2) (f u1 - f u2)) as CD.
    replace (f u2 + f v2 - 1 + (f u1 - f u2)) with (f u1 + f v2 - 1) in CD by ring.
    replace (f u1 + f v2 - 1 + (f v1 - f v2)) with (f u1 + f v1 - 1) in CD by ring.
    replace (f u2 + f v2 - 1 + (f v1 - f v2)) with (f u2 + f v1 - 1) in CD by ring.
    (* continuity only needed on (1/2, oo) : use lo = 1/2 *)
    clear CD.
    pose proof (convex_decr h (fun z => (-1 / a) * Rpower z (-1 / a - 1)) (1/2) (f u2 + f v2 - 1) (f v1 - f v2) (f u1 - f u2)
      ltac:(lra) ltac:(lra) ltac:(lra)) as CD.
    replace (f u2 + f v2 - 1 + (f u1 - f u2)) with (f u1 + f v2 - 1) in CD by ring.
    replace (f u1 + f v2 - 1 + (f v1 - f v2)) with (f u1 + f v1 - 1) in CD by ring.
    replace (f u2 + f v2 - 1 + (f v1 - f v2)) with (f u2 + f v1 - 1) in CD by ring.
    assert (X : h (f u1 + f v2 - 1) - h (f u1 + f v1 - 1) <= h (f u2 + f v2 - 1) - h (f u2 + f v1 - 1)).
    { apply CD.
      - intros z Hz. apply D_Rpower. lra.
      - intros z Hz. eapply derive_cont. apply D_Rpower. lra.
      - intros z w Hz Hzw. rewrite neg_inv. assert (0 < 1 / a) by (apply Rdiv_lt_0_compat; lra).
        assert (Rpower w (- (1 / a) - 1) <= Rpower z (- (1 / a) - 1)).
        { replace (- (1 / a) - 1) with (- (1 / a + 1)) by ring. apply Rpower_anti; lra. }
        nra. }
    lra.
  - rewrite !clayton_0r. rewrite (clayton_sym u2), (clayton_sym u1). pose proof (clayton_nonneg_v v2 u1 u2 ltac:(lra) ltac:(lra) Hu2). lra.
  - rewrite !clayton_0l. pose proof (clayton_nonneg_v u2 v1 v2 ltac:(lra) ltac:(lra) Hv2). lra.
  - rewrite !clayton_0l, !clayton_0r. pose proof (clayton_nonneg_v u2 0 v2 ltac:(lra) ltac:(lra) Hv2). rewrite clayton_0r in H. lra.
Qed.
End Clayton.

Section Gumbel.
Variable a : R.
Hypothesis Ha : 1 <= a.
Let k := 1 / a.
Let f u := npow (- ln u) a.
Let h z := exp (- npow z k).
Lemma k_range : 0 < k <= 1.
Proof.
  unfold k. split; [apply Rdiv_lt_0_compat; lra|]. apply Rmult_le_reg_r with a; [lra|].
  replace (1 / a * a) with 1 by (field; lra). lra.
Qed.
Lemma npow_pos z b : 0 < z -> npow z b = Rpower z b.
Proof. intros. unfold npow. destruct (Rle_dec z 0); [lra|reflexivity]. Qed.
Lemma npow_neg z b : z <= 0 -> npow z b = 0.
Proof. intros. unfold npow. destruct (Rle_dec z 0); [reflexivity|lra]. Qed.
Lemma npow_nonneg z b : 0 <= npow z b.
Proof. unfold npow. destruct (Rle_dec z 0); [lra|left; apply Rpower_pos]. Qed.
Lemma npow_mono x y b : 0 <= b -> x <= y -> npow x b <= npow y b.
Proof.
  intros Hb H. unfold npow. destruct (Rle_dec x 0), (Rle_dec y 0); try lra.
  - left; apply Rpower_pos.
  - apply Rpower_mono; lra.
Qed.
Lemma gumbel_in u v : 0 < u -> 0 < v -> gumbel a u v = h (f u + f v).
Proof. intros. unfold gumbel. destruct (Rle_dec u 0); [lra|]. destruct (Rle_dec v 0); [lra|]. reflexivity. Qed.
Lemma gumbel_0l v : gumbel a 0 v = 0.
Proof. unfold gumbel. destruct (Rle_dec 0 0); [reflexivity|lra]. Qed.
Lemma gumbel_0r u : gumbel a u 0 = 0.
Proof. unfold gumbel. destruct (Rle_dec u 0); [reflexivity|]. destruct (Rle_dec 0 0); [reflexivity|lra]. Qed.
Lemma gf1 : f 1 = 0.
Proof. unfold f. rewrite ln_1, Ropp_0. apply npow_neg; lra. Qed.
Lemma gh_f u : 0 < u <= 1 -> h (f u) = u.
Proof.
  intros [Hu [Hu1| ->]].
  - unfold h, f, k. assert (ln u < 0) by (rewrite <- ln_1; now apply ln_increasing).
    rewrite (npow_pos (- ln u)) by lra. rewrite npow_pos by apply Rpower_pos.
    rewrite Rpower_mult. replace (a * (1 / a)) with 1 by (field; lra). rewrite Rpower_1 by lra.
    rewrite Ropp_involutive. now apply exp_ln.
  - rewrite gf1. unfold h. rewrite npow_neg by lra. rewrite Ropp_0. apply exp_0.
Qed.
Lemma gf_anti u v : 0 < u <= v -> f v <= f u.
Proof. intros [H1 H2]. unfold f. apply npow_mono; [lra|]. assert (ln u <= ln v) by (apply ln_le; assumption). lra. Qed.
Lemma gh_anti x y : x <= y -> h y <= h x.
Proof. intros H. unfold h. apply exp_mono. pose proof k_range. pose proof (npow_mono x y k ltac:(lra) H). lra. Qed.
Lemma gumbel_grounded : grounded (gumbel a).
Proof. intros u _. split; [apply gumbel_0l|apply gumbel_0r]. Qed.
Lemma gumbel_margins : uniform_margins (gumbel a).
Proof.
  intros u [[Hu|<-] Hu1]; [|split; [apply gumbel_0l|apply gumbel_0r]].
  rewrite !gumbel_in by lra. rewrite gf1, Rplus_0_r, Rplus_0_l, gh_f by lra. split; reflexivity.
Qed.
Lemma gumbel_sym u v : gumbel a u v = gumbel a v u.
Proof. unfold gumbel. destruct (Rle_dec u 0), (Rle_dec v 0); try reflexivity. now rewrite (Rplus_comm (npow (- ln u) a)). Qed.
Lemma gumbel_mono_v u v1 v2 : 0 <= u <= 1 -> 0 <= v1 <= v2 -> v2 <= 1 -> gumbel a u v1 <= gumbel a u v2.
Proof.
  intros [[Hu|<-] Hu1] [[Hv1|<-] Hv] Hv2; rewrite ?gumbel_0l, ?gumbel_0r; try lra.
  - rewrite !gumbel_in by lra. apply gh_anti. pose proof (gf_anti v1 v2 ltac:(lra)). lra.
  - destruct (Rle_lt_or_eq_dec 0 v2 Hv) as [H|<-]; [|rewrite gumbel_0r; lra].
    rewrite gumbel_in by lra. left. apply exp_pos.
Qed.
Lemma D_gh z : 0 < z -> is_derive h z (- (k * Rpower z (k - 1)) * exp (- Rpower z k)).
Proof.
  intros Hz. apply (is_derive_ext_loc (fun z => exp (- Rpower z k))).
  - eapply filter_imp; [|apply (open_gt 0 z Hz)]. intros w Hw. unfold h. now rewrite npow_pos.
  - eapply is_derive_eq; [apply (D_exp (fun z => - Rpower z k)); apply D_opp, D_Rpower; exact Hz|]. ring.
Qed.
Lemma cont_npow0 : continuity_pt (fun z => npow z k) 0.
Proof.
  pose proof k_range as Hk. intros eps Heps.
  exists (Rpower eps (/ k)). split; [apply Rpower_pos|].
  intros z [_ Hz]. unfold dist in *; cbn in *. unfold R_dist in *. rewrite Rminus_0_r in Hz.
  rewrite (npow_neg 0) by lra. rewrite Rminus_0_r. destruct (Rle_dec z 0) as [H|H].
  - rewrite npow_neg by exact H. now rewrite Rabs_R0.
  - rewrite npow_pos by lra. rewrite Rabs_pos_eq by (left; apply Rpower_pos).
    rewrite Rabs_pos_eq in Hz by lra.
    apply Rlt_le_trans with (Rpower (Rpower eps (/ k)) k).
    + unfold Rpower at 1 2. apply exp_increasing. apply Rmult_lt_compat_l; [lra|]. apply ln_increasing; lra.
    + rewrite Rpower_mult, Rinv_l by lra. rewrite Rpower_1 by exact Heps. lra.
Qed.
Lemma cont_gh z : 0 <= z -> continuity_pt h z.
Proof.
  intros [Hz|<-].
  - eapply derive_cont. now apply D_gh.
  - unfold h. apply (continuity_pt_comp (fun z => - npow z k) exp).
    + apply continuity_pt_opp, cont_npow0.
    + apply derivable_continuous_pt, derivable_pt_exp.
Qed.
Lemma gumbel_two_increasing : two_increasing (gumbel a).
Proof.
  intros u1 u2 v1 v2 [[Hu1|<-] Hu] Hu2 [[Hv1|<-] Hv] Hv2.
  - rewrite !gumbel_in by lra.
    pose proof (npow_nonneg (- ln u2) a) as F1. fold (f u2) in F1. pose proof (npow_nonneg (- ln v2) a) as F2. fold (f v2) in F2.
    pose proof (gf_anti u1 u2 ltac:(lra)). pose proof (gf_anti v1 v2 ltac:(lra)).
    pose proof (convex_decr h (fun z => - (k * Rpower z (k - 1)) * exp (- Rpower z k)) 0 (f u2 + f v2) (f v1 - f v2) (f u1 - f u2)
      ltac:(lra) ltac:(lra) ltac:(lra)) as CD.
    replace (f u2 + f v2 + (f u1 - f u2)) with (f u1 + f v2) in CD by ring.
    replace (f u1 + f v2 + (f v1 - f v2)) with (f u1 + f v1) in CD by ring.
    replace (f u2 + f v2 + (f v1 - f v2)) with (f u2 + f v1) in CD by ring.
    assert (X : h (f u1 + f v2) - h (f u1 + f v1) <= h (f u2 + f v2) - h (f u2 + f v1)).
    { apply CD.
      - intros z Hz. now apply D_gh.
      - intros z Hz. now apply cont_gh.
      - intros z w Hz Hzw. pose proof k_range as Hk.
        assert (A1 : Rpower w (k - 1) <= Rpower z (k - 1)).
        { replace (k - 1) with (- (1 - k)) by ring. apply Rpower_anti; lra. }
        assert (A2 : exp (- Rpower w k) <= exp (- Rpower z k)).
        { apply exp_mono. pose proof (Rpower_mono z w k ltac:(lra) ltac:(lra)). lra. }
        pose proof (Rpower_pos w (k - 1)). pose proof (exp_pos (- Rpower w k)).
        assert (Rpower w (k - 1) * exp (- Rpower w k) <= Rpower z (k - 1) * exp (- Rpower z k)).
        { apply Rmult_le_compat; lra. }
        nra. }
    lra.
  - rewrite !gumbel_0r. rewrite (gumbel_sym u2), (gumbel_sym u1). pose proof (gumbel_mono_v v2 u1 u2 ltac:(lra) ltac:(lra) Hu2). lra.
  - rewrite !gumbel_0l. pose proof (gumbel_mono_v u2 v1 v2 ltac:(lra) ltac:(lra) Hv2). lra.
  - rewrite !gumbel_0l, !gumbel_0r. pose proof (gumbel_mono_v u2 0 v2 ltac:(lra) ltac:(lra) Hv2). rewrite gumbel_0r in H. lra.
Qed.
End Gumbel.

(** ---- degenerate cases ---- *)
Lemma gumbel_1 u v : 0 <= u <= 1 -> 0 <= v <= 1 -> gumbel 1 u v = u * v.
Proof.
  intros [[Hu|<-] Hu1]; [|intros; rewrite gumbel_0l; ring]. intros [[Hv|<-] Hv1]; [|rewrite gumbel_0r; ring].
  assert (E : forall z, 0 <= z -> npow z 1 = z).
  { intros z [Hz|<-]; [rewrite npow_pos by exact Hz; now apply Rpower_1|apply npow_neg; lra]. }
  assert (L : forall z, 0 < z <= 1 -> 0 <= - ln z).
  { intros z Hz. assert (ln z <= ln 1) by (apply ln_le; lra). rewrite ln_1 in H. lra. }
  rewrite gumbel_in by assumption. replace (1 / 1) with 1 by field.
  pose proof (L u ltac:(lra)). pose proof (L v ltac:(lra)).
  rewrite !E; try lra. replace (- (- ln u + - ln v)) with (ln u + ln v) by ring. now rewrite exp_plus, !exp_ln.
  rewrite !E; lra.
Qed.
Lemma amh_0 u v : amh 0 u v = u * v.
Proof. unfold amh. field. Qed.
Lemma G_prod px py i j : G Rmult px py i j = coord px i * coord py j.
Proof. destruct i, j; cbn [G]; rewrite ?coord_0; ring. Qed.
Lemma joint_ext C C' px py : good px -> good py ->
  (forall u v, 0 <= u <= 1 -> 0 <= v <= 1 -> C u v = C' u v) -> joint C px py = joint C' px py.
Proof.
  intros Hx Hy H.
  assert (R : forall l z, good l -> In z (normcum l) -> 0 <= z <= 1).
  { intros l z Hl Hz. apply (In_nth _ _ 0) in Hz. destruct Hz as (i & Hi & <-). rewrite normcum_length in Hi.
    rewrite normcum_nth by exact Hi. now apply (coord_range l (S i)). }
  assert (E : map (fun u => map (fun v => C u v) (normcum py)) (normcum px)
            = map (fun u => map (fun v => C' u v) (normcum py)) (normcum px)).
  { apply map_ext_in. intros u Hu. apply map_ext_in. intros v Hv. apply H; [exact (R px u Hx Hu)|exact (R py v Hy Hv)]. }
  unfold joint. cbn zeta. now rewrite E.
Qed.
Lemma joint_product px py : good px -> good py -> forall i j, (i < length px)%nat -> (j < length py)%nat ->
  nth j (nth i (joint Rmult px py) []) 0 = nth i px 0 / total px * (nth j py 0 / total py).
Proof.
  intros Hx Hy i j Hi Hj. rewrite (proj2 (joint_row Rmult px py i Hi)) by exact Hj. rewrite !G_prod.
  unfold coord. rewrite !prefix_S by assumption. destruct Hx, Hy. field. lra.
Qed.
