From Coq Require Import Reals List Lra Lia.
From Coquelicot Require Import Coquelicot.
From Verif Require Import Prelude AnalyticSpec MarkovModel MarkovSpec MarkovProofs.
Import List ListNotations.
Local Open Scope R_scope.

(** Reading entries of what the functions return. *)
Definition value_at {C} (r : res (C -> R)) (c : C) : R := match r with Ok f => f c | Raise _ => 0 end.
Definition grad_at {C} (r : res ((C -> R) * list (C -> R) * list (list (C -> R)))) (i : nat) (c : C) : R :=
  match r with Ok (_, g, _) => nth i g (fun _ => 0) c | Raise _ => 0 end.

Definition admissible (steps : nat) (p1 p2 : R) : Prop := (0 < steps)%nat /\ 0 < p1 /\ 0 < p2 /\ p1 + p2 < INR steps.
Lemma rate_ok_adm steps p1 p2 : admissible steps p1 p2 -> rate_ok (p1 / INR steps) (p2 / INR steps) = Ok tt.
Proof.
  intros (Hs & H1 & H2 & H). assert (Hn : 0 < INR steps) by (apply lt_0_INR; lia).
  assert (Hi : 0 < / INR steps) by now apply Rinv_0_lt_compat.
  assert (0 < p1 / INR steps) by (apply Rmult_lt_0_compat; assumption).
  assert (0 < p2 / INR steps) by (apply Rmult_lt_0_compat; assumption).
  assert (p1 / INR steps + p2 / INR steps < 1).
  { replace (p1 / INR steps + p2 / INR steps) with ((p1 + p2) * / INR steps) by (field; lra).
    apply Rmult_lt_reg_r with (INR steps); [lra|]. rewrite Rmult_assoc, Rinv_l by lra. lra. }
  unfold rate_ok. repeat (match goal with |- context [Rlt_dec ?a ?b] => destruct (Rlt_dec a b); [|lra] end). reflexivity.
Qed.
Lemma not_rate_ok steps p1 p2 : (0 < steps)%nat -> p1 <= 0 \/ p2 <= 0 \/ INR steps <= p1 + p2 ->
  rate_ok (p1 / INR steps) (p2 / INR steps) = Raise AssertionError.
Proof.
  intros Hs H. assert (Hn : 0 < INR steps) by (apply lt_0_INR; lia).
  assert (Hi : 0 < / INR steps) by now apply Rinv_0_lt_compat.
  unfold rate_ok. repeat (match goal with |- context [Rlt_dec ?a ?b] => destruct (Rlt_dec a b) end); try reflexivity.
  exfalso. unfold Rdiv in *.
  assert (0 < p1) by (apply Rmult_lt_reg_r with (/ INR steps); lra).
  assert (0 < p2) by (apply Rmult_lt_reg_r with (/ INR steps); lra).
  assert (p1 + p2 < INR steps).
  { apply Rmult_lt_reg_r with (/ INR steps); [lra|]. rewrite Rinv_r by lra. lra. }
  lra.
Qed.
Lemma adm_loc1 steps p1 p2 : admissible steps p1 p2 -> locally p1 (fun p => admissible steps p p2).
Proof.
  intros (Hs & H1 & H2 & H).
  pose proof (open_gt 0 p1 H1) as G1. pose proof (open_lt (INR steps - p2) p1 ltac:(lra)) as G2.
  pose proof (filter_and _ _ G1 G2) as G. eapply filter_imp; [|exact G]. intros p [A B]. repeat split; try assumption. lra.
Qed.
Lemma adm_loc2 steps p1 p2 : admissible steps p1 p2 -> locally p2 (fun p => admissible steps p1 p).
Proof.
  intros (Hs & H1 & H2 & H).
  pose proof (open_gt 0 p2 H2) as G1. pose proof (open_lt (INR steps - p1) p2 ltac:(lra)) as G2.
  pose proof (filter_and _ _ G1 G2) as G. eapply filter_imp; [|exact G]. intros p [A B]. repeat split; try assumption. lra.
Qed.
(** Rescaling by the number of steps. *)
Lemma D_rescale (f : R -> R) n p d : n <> 0 -> is_derive f (p / n) d -> is_derive (fun s => f (s / n)) p (d / n).
Proof.
  intros Hn H. eapply is_derive_eq.
  - apply (D_comp f (fun s => s / n)); [exact H|]. apply (D_mult (fun s => s) (fun _ => / n)); [apply D_id|apply D_const].
  - cbv beta. field. exact Hn.
Qed.
Lemma D_rescale2 (f : R -> R) n p d : n <> 0 -> is_derive f (p / n) d -> is_derive (fun s => f (s / n) / n) p (d / (n * n)).
Proof.
  intros Hn H. eapply is_derive_eq.
  - apply (D_mult (fun s => f (s / n)) (fun _ => / n)); [apply D_rescale; eassumption|apply D_const].
  - cbv beta. field. exact Hn.
Qed.

Section M.
Variables (size : nat) (skew : nat -> nat -> R).
Notation call := (mm_call size skew). Notation ev := (mm_eval size skew).
Lemma mm_call_ok steps p1 p2 : admissible steps p1 p2 -> call steps p1 p2 = Ok (mm_run size skew (p1 / INR steps) (p2 / INR steps) steps).
Proof. intros H. unfold mm_call. now rewrite rate_ok_adm. Qed.
Lemma mm_grads steps p1 p2 : admissible steps p1 p2 -> forall c,
  grad_at (ev steps p1 p2) 0 c = sD1 (mm_run6 size skew (p1 / INR steps) (p2 / INR steps) steps) c / INR steps /\
  grad_at (ev steps p1 p2) 1 c = sD2 (mm_run6 size skew (p1 / INR steps) (p2 / INR steps) steps) c / INR steps.
Proof. intros H c. unfold mm_eval. rewrite rate_ok_adm by exact H. split; reflexivity. Qed.

Theorem mm_eval_correct steps p1 p2 : admissible steps p1 p2 ->
  exists v d1 d2 h11 h12 h22,
   ev steps p1 p2 = Ok (v, [d1; d2], [[h11]; [h12; h22]]) /\ call steps p1 p2 = Ok v /\
   (forall c,
     is_derive (fun p => value_at (call steps p p2) c) p1 (d1 c) /\
     is_derive (fun p => value_at (call steps p1 p) c) p2 (d2 c) /\
     is_derive (fun p => grad_at (ev steps p p2) 0 c) p1 (h11 c) /\
     is_derive (fun p => grad_at (ev steps p1 p) 1 c) p2 (h22 c)) /\
   ((forall x y, skew x y = skew y x) -> forall c,
     is_derive (fun p => grad_at (ev steps p1 p) 0 c) p2 (h12 c) /\
     is_derive (fun p => grad_at (ev steps p p2) 1 c) p1 (h12 c)).
Proof.
  intros H. assert (Hn : INR steps <> 0) by (apply not_0_INR; destruct H; lia).
  do 6 eexists. split; [unfold mm_eval; rewrite rate_ok_adm by exact H; reflexivity|].
  split; [rewrite mm_call_ok by exact H; now rewrite run6_M|]. split.
  - intros c. destruct (Inv_run size skew steps (p1 / INR steps) (p2 / INR steps) c) as (A1 & A2 & A3 & A4).
    split; [|split; [|split]].
    + apply (is_derive_ext_loc (fun p => sM (mm_run6 size skew (p / INR steps) (p2 / INR steps) steps) c)).
      * eapply filter_imp; [|apply adm_loc1, H]. intros p Hp. rewrite mm_call_ok by exact Hp. cbn. now rewrite run6_M.
      * apply (D_rescale (fun s => sM (mm_run6 size skew s (p2 / INR steps) steps) c)); assumption.
    + apply (is_derive_ext_loc (fun p => sM (mm_run6 size skew (p1 / INR steps) (p / INR steps) steps) c)).
      * eapply filter_imp; [|apply adm_loc2, H]. intros p Hp. rewrite mm_call_ok by exact Hp. cbn. now rewrite run6_M.
      * apply (D_rescale (fun s => sM (mm_run6 size skew (p1 / INR steps) s steps) c)); assumption.
    + apply (is_derive_ext_loc (fun p => sD1 (mm_run6 size skew (p / INR steps) (p2 / INR steps) steps) c / INR steps)).
      * eapply filter_imp; [|apply adm_loc1, H]. intros p Hp. symmetry. apply (mm_grads steps p p2 Hp c).
      * apply (D_rescale2 (fun s => sD1 (mm_run6 size skew s (p2 / INR steps) steps) c)); assumption.
    + apply (is_derive_ext_loc (fun p => sD2 (mm_run6 size skew (p1 / INR steps) (p / INR steps) steps) c / INR steps)).
      * eapply filter_imp; [|apply adm_loc2, H]. intros p Hp. symmetry. apply (mm_grads steps p1 p Hp c).
      * apply (D_rescale2 (fun s => sD2 (mm_run6 size skew (p1 / INR steps) s steps) c)); assumption.
  - intros Hs c. destruct (Inv12_run size skew steps Hs (p1 / INR steps) (p2 / INR steps) c) as (A1 & A2).
    split.
    + apply (is_derive_ext_loc (fun p => sD1 (mm_run6 size skew (p1 / INR steps) (p / INR steps) steps) c / INR steps)).
      * eapply filter_imp; [|apply adm_loc2, H]. intros p Hp. symmetry. apply (mm_grads steps p1 p Hp c).
      * apply (D_rescale2 (fun s => sD1 (mm_run6 size skew (p1 / INR steps) s steps) c)); assumption.
    + apply (is_derive_ext_loc (fun p => sD2 (mm_run6 size skew (p / INR steps) (p2 / INR steps) steps) c / INR steps)).
      * eapply filter_imp; [|apply adm_loc1, H]. intros p Hp. symmetry. apply (mm_grads steps p p2 Hp c).
      * apply (D_rescale2 (fun s => sD2 (mm_run6 size skew s (p2 / INR steps) steps) c)); assumption.
Qed.
End M.

Section V.
Variables (size : nat) (skew : nat -> R).
Notation call := (mv_call size skew). Notation ev := (mv_eval size skew).
Lemma mv_call_ok steps p1 p2 : admissible steps p1 p2 -> call steps p1 p2 = Ok (mv_run size skew (p1 / INR steps) (p2 / INR steps) steps).
Proof. intros H. unfold mv_call. now rewrite rate_ok_adm. Qed.
Lemma mv_grads steps p1 p2 : admissible steps p1 p2 -> forall c,
  grad_at (ev steps p1 p2) 0 c = vD1 (mv_run6 size skew (p1 / INR steps) (p2 / INR steps) steps) c / INR steps /\
  grad_at (ev steps p1 p2) 1 c = vD2 (mv_run6 size skew (p1 / INR steps) (p2 / INR steps) steps) c / INR steps.
Proof. intros H c. unfold mv_eval. rewrite rate_ok_adm by exact H. split; reflexivity. Qed.
Theorem mv_eval_correct steps p1 p2 : admissible steps p1 p2 ->
  exists v d1 d2 h11 h12 h22,
   ev steps p1 p2 = Ok (v, [d1; d2], [[h11]; [h12; h22]]) /\ call steps p1 p2 = Ok v /\
   forall c,
     is_derive (fun p => value_at (call steps p p2) c) p1 (d1 c) /\
     is_derive (fun p => value_at (call steps p1 p) c) p2 (d2 c) /\
     is_derive (fun p => grad_at (ev steps p p2) 0 c) p1 (h11 c) /\
     is_derive (fun p => grad_at (ev steps p1 p) 0 c) p2 (h12 c) /\
     is_derive (fun p => grad_at (ev steps p p2) 1 c) p1 (h12 c) /\
     is_derive (fun p => grad_at (ev steps p1 p) 1 c) p2 (h22 c).
Proof.
  intros H. assert (Hn : INR steps <> 0) by (apply not_0_INR; destruct H; lia).
  do 6 eexists. split; [unfold mv_eval; rewrite rate_ok_adm by exact H; reflexivity|].
  split; [rewrite mv_call_ok by exact H; now rewrite vrun6_M|].
  intros c. destruct (VInv_run size skew steps (p1 / INR steps) (p2 / INR steps) c) as (A1 & A2 & A3 & A4 & A5 & A6).
  split; [|split; [|split; [|split; [|split]]]].
    + apply (is_derive_ext_loc (fun p => vM (mv_run6 size skew (p / INR steps) (p2 / INR steps) steps) c)).
      * eapply filter_imp; [|apply adm_loc1, H]. intros p Hp. rewrite mv_call_ok by exact Hp. cbn. now rewrite vrun6_M.
      * apply (D_rescale (fun s => vM (mv_run6 size skew s (p2 / INR steps) steps) c)); assumption.
    + apply (is_derive_ext_loc (fun p => vM (mv_run6 size skew (p1 / INR steps) (p / INR steps) steps) c)).
      * eapply filter_imp; [|apply adm_loc2, H]. intros p Hp. rewrite mv_call_ok by exact Hp. cbn. now rewrite vrun6_M.
      * apply (D_rescale (fun s => vM (mv_run6 size skew (p1 / INR steps) s steps) c)); assumption.
    + apply (is_derive_ext_loc (fun p => vD1 (mv_run6 size skew (p / INR steps) (p2 / INR steps) steps) c / INR steps)).
      * eapply filter_imp; [|apply adm_loc1, H]. intros p Hp. symmetry. apply (mv_grads steps p p2 Hp c).
      * apply (D_rescale2 (fun s => vD1 (mv_run6 size skew s (p2 / INR steps) steps) c)); assumption.
    + apply (is_derive_ext_loc (fun p => vD1 (mv_run6 size skew (p1 / INR steps) (p / INR steps) steps) c / INR steps)).
      * eapply filter_imp; [|apply adm_loc2, H]. intros p Hp. symmetry. apply (mv_grads steps p1 p Hp c).
      * apply (D_rescale2 (fun s => vD1 (mv_run6 size skew (p1 / INR steps) s steps) c)); assumption.
    + apply (is_derive_ext_loc (fun p => vD2 (mv_run6 size skew (p / INR steps) (p2 / INR steps) steps) c / INR steps)).
      * eapply filter_imp; [|apply adm_loc1, H]. intros p Hp. symmetry. apply (mv_grads steps p p2 Hp c).
      * apply (D_rescale2 (fun s => vD2 (mv_run6 size skew s (p2 / INR steps) steps) c)); assumption.
    + apply (is_derive_ext_loc (fun p => vD2 (mv_run6 size skew (p1 / INR steps) (p / INR steps) steps) c / INR steps)).
      * eapply filter_imp; [|apply adm_loc2, H]. intros p Hp. symmetry. apply (mv_grads steps p1 p Hp c).
      * apply (D_rescale2 (fun s => vD2 (mv_run6 size skew (p1 / INR steps) s steps) c)); assumption.
Qed.
End V.

(** ---- the mixed derivative with an asymmetric skew ---- *)
Definition asym (x y : nat) : R := if (Nat.eqb x 0 && Nat.eqb y 1)%bool then 2 else 1.
Lemma asym_D1 s1 s2 : sD1 (mm_run6 2 asym s1 s2 2) (0, 1)%nat = - (3 * s2).
Proof.
  unfold mm_run6, mm_sweep6, mm_cells. cbn -[Rplus Rmult Ropp Rminus]. 
  unfold addto; cbn -[Rplus Rmult Ropp Rminus]. ring.
Qed.
Lemma asym_H12 s1 s2 : sH12 (mm_run6 2 asym s1 s2 2) (0, 1)%nat = - 2.
Proof.
  unfold mm_run6, mm_sweep6, mm_cells. cbn -[Rplus Rmult Ropp Rminus].
  unfold addto; cbn -[Rplus Rmult Ropp Rminus]. ring.
Qed.
Lemma mm_h12_wrong : exists h12, 
  (exists v g h11 h22, mm_eval 2 asym 2 (1/2) (1/2) = Ok (v, g, [[h11]; [h12; h22]])) /\
  exists d, is_derive (fun p => grad_at (mm_eval 2 asym 2 (1/2) p) 0 (0, 1)%nat) (1/2) d /\ d <> h12 (0, 1)%nat.
Proof.
  assert (H : admissible 2 (1/2) (1/2)) by (unfold admissible; cbn; repeat split; try lia; lra).
  eexists. split.
  - do 4 eexists. unfold mm_eval. rewrite rate_ok_adm by exact H. reflexivity.
  - exists (-3 / 4). split.
    + apply (is_derive_ext_loc (fun p => - (3 * (p / INR 2)) / INR 2)).
      * eapply filter_imp; [|apply adm_loc2, H]. intros p Hp. rewrite (proj1 (mm_grads 2 asym 2 (1/2) p Hp (0,1)%nat)).
        now rewrite asym_D1.
      * cbn [INR]. auto_derive; [exact I|]. field.
    + rewrite asym_H12. cbn [INR]. lra.
Qed.

(** ---- CollapseMatrix ---- *)
Lemma gsum_Rsum nx ny f : gsum nx ny f = Rsum f (grid nx ny).
Proof. reflexivity. Qed.
Lemma sgn_cases i j :
  Z.sgn (1 * Z.of_nat i + -1 * Z.of_nat j + 0) = (if Nat.ltb j i then 1 else if Nat.eqb i j then 0 else -1)%Z.
Proof.
  destruct (Nat.ltb_spec j i); [apply Z.sgn_pos; lia|].
  destruct (Nat.eqb_spec i j); [subst; replace (_ + _ + _)%Z with 0%Z by lia; reflexivity|]. apply Z.sgn_neg; lia.
Qed.
Lemma filt_default i j :
  filt (1, -1, 0, 1)%Z i j = Nat.ltb j i /\ filt (1, -1, 0, 0)%Z i j = Nat.eqb i j /\ filt (1, -1, 0, -1)%Z i j = Nat.ltb i j.
Proof.
  unfold filt. rewrite sgn_cases.
  destruct (Nat.ltb_spec j i); destruct (Nat.eqb_spec i j); destruct (Nat.ltb_spec i j); try lia; repeat split.
Qed.
Lemma Rsum_filter {X} (f : X -> R) (b : X -> bool) l : Rsum (fun x => f x * b2R (b x)) l = Rsum f (filter b l).
Proof.
  induction l as [|x l IH]; [reflexivity|]. rewrite Rsum_cons, IH. cbn [filter]. destruct (b x); cbn [b2R]; [rewrite Rsum_cons|]; lra.
Qed.
Lemma collapse_default nx ny arr :
  collapse_call (collapse_init None) nx ny arr = Ok
    [Rsum arr (filter (fun c => Nat.ltb (snd c) (fst c)) (grid nx ny));
     Rsum arr (filter (fun c => Nat.eqb (fst c) (snd c)) (grid nx ny));
     Rsum arr (filter (fun c => Nat.ltb (fst c) (snd c)) (grid nx ny))].
Proof.
  unfold collapse_call, collapse_init; cbn [map]. rewrite !gsum_Rsum. 
  f_equal. rewrite <- !Rsum_filter.
  f_equal; [|f_equal; [|f_equal]]; apply Rsum_ext; intros c _; destruct (filt_default (fst c) (snd c)) as (A & B & D);
    rewrite ?A, ?B, ?D; reflexivity.
Qed.
Lemma collapse_total nx ny arr :
  exists l, collapse_call (collapse_init None) nx ny arr = Ok l /\ Rsum (fun x => x) l = Rsum arr (grid nx ny).
Proof.
  eexists. split; [apply collapse_default|]. rewrite !Rsum_cons, Rsum_nil. rewrite <- !Rsum_filter.
  rewrite Rplus_0_r, <- !Rsum_plus. apply Rsum_ext. intros [i j] _; cbn [fst snd].
  destruct (Nat.ltb_spec j i); destruct (Nat.eqb_spec i j); destruct (Nat.ltb_spec i j); try lia; cbn [b2R]; lra.
Qed.
Lemma collapse_grad_ok cds nx ny u :
  exists g, collapse_grad (Some cds) = Ok g /\
  gradient_on (grid nx ny) (fun _ => True)
    (fun arr => match collapse_call (Some cds) nx ny arr with Ok l => nth u l 0 | Raise _ => 0 end)
    (fun _ c => nth u g (fun _ => 0) c).
Proof.
  eexists. split; [reflexivity|]. intros c v t _ Hc. unfold collapse_call. revert u. induction cds as [|cd cds IH]; intros u; cbn [map].
  - destruct u; cbn [nth]; (eapply is_derive_eq; [apply D_const|]); rewrite Rsum_zero; auto; intros; ring.
  - destruct u as [|u]; cbn [nth]; [|apply IH].
    unfold gsum. fold (Rsum (X := nat * nat)).
    eapply is_derive_eq.
    + apply (is_derive_Rsum (fun s c0 => c s c0 * b2R (filt cd (fst c0) (snd c0))) (fun c0 => v c0 * b2R (filt cd (fst c0) (snd c0)))).
      intros x Hx. eapply is_derive_eq; [apply (D_mult (fun s => c s x) (fun _ => b2R (filt cd (fst x) (snd x)))); [apply Hc, Hx|apply D_const]|].
      cbv beta. ring.
    + apply Rsum_ext. intros. ring.
Qed.
Lemma collapse_shape_ok nx ny k a b :
  collapse_grad_shape [nx; ny] k = [nx; ny; k] /\
  collapse_grad_shape [a; nx; ny] k = [nx; ny; a; k] /\
  collapse_grad_shape [a; b; nx; ny] k = [nx; ny; a; b; k].
Proof. repeat split. Qed.
Lemma collapse_shape_3 nx ny k a b c :
  collapse_grad_shape [a; b; c; nx; ny] k = [nx; ny; c; a; b; k].
Proof. reflexivity. Qed.
