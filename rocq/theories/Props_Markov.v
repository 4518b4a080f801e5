(** Properties C34-C37 (Markov functions, CollapseMatrix). *)
From Coq Require Import Reals List Lra Lia.
From Coquelicot Require Import Coquelicot.
From Verif Require Import Prelude AnalyticSpec MarkovModel MarkovSpec MarkovProofs MarkovSweep MarkovDeriv.
Import List ListNotations.
Local Open Scope R_scope.

(** [admissible steps p1 p2]: steps > 0, p1 > 0, p2 > 0, p1 + p2 < steps, i.e.
    exactly when the asserts pass (see C34_asserts). *)
Theorem C34_asserts : forall n skew vskew steps p1 p2, (0 < steps)%nat ->
  (0 < p1 /\ 0 < p2 /\ p1 + p2 < INR steps -> (exists v, mm_call n skew steps p1 p2 = Ok v) /\ (exists v, mv_call n vskew steps p1 p2 = Ok v)) /\
  (p1 <= 0 \/ p2 <= 0 \/ INR steps <= p1 + p2 ->
     mm_call n skew steps p1 p2 = Raise AssertionError /\ mv_call n vskew steps p1 p2 = Raise AssertionError).
Proof.
  intros n skew vskew steps p1 p2 Hs. split.
  - intros H. assert (A : admissible steps p1 p2) by (unfold admissible; tauto).
    split; eexists; [now apply mm_call_ok|now apply mv_call_ok].
  - intros H. unfold mm_call, mv_call. rewrite not_rate_ok by assumption. split; reflexivity.
Qed.
Print Assumptions C34_asserts.
Theorem C34_matrix_mass : forall n skew steps p1 p2 v, (0 < n)%nat -> admissible steps p1 p2 ->
  mm_call n skew steps p1 p2 = Ok v ->
  Rsum v (square n) = 1 /\
  ((forall x y, (x < n)%nat -> (y < n)%nat -> 0 <= skew x y) ->
   (forall x y, (x < n)%nat -> (y < n)%nat -> p1 / INR steps * skew x y + p2 / INR steps * skew y x <= 1) ->
   forall d, In d (square n) -> 0 <= v d).
Proof.
  intros n skew steps p1 p2 v Hn A E. rewrite mm_call_ok in E by exact A. injection E as <-.
  split; [now apply mm_run_total|].
  destruct A as (Hs & H1 & H2 & _). assert (0 < INR steps) by (apply lt_0_INR; lia).
  intros. apply mm_run_nonneg; auto; apply Rlt_le, Rdiv_lt_0_compat; assumption.
Qed.
Print Assumptions C34_matrix_mass.
Theorem C34_vector_mass : forall n skew steps p1 p2 v, (0 < n)%nat -> admissible steps p1 p2 ->
  mv_call n skew steps p1 p2 = Ok v ->
  Rsum v (seq 0 (2 * n - 1)) = 1 /\
  ((forall x, (x < 2 * n - 1)%nat -> 0 <= skew x) ->
   (forall x, (x < 2 * n - 1)%nat -> p1 / INR steps * skew x + p2 / INR steps * skew (2 * n - 2 - x)%nat <= 1) ->
   forall d, (d < 2 * n - 1)%nat -> 0 <= v d).
Proof.
  intros n skew steps p1 p2 v Hn A E. rewrite mv_call_ok in E by exact A. injection E as <-.
  split; [now apply mv_run_total|].
  destruct A as (Hs & H1 & H2 & _). assert (0 < INR steps) by (apply lt_0_INR; lia).
  intros. apply mv_run_nonneg; auto; apply Rlt_le, Rdiv_lt_0_compat; assumption.
Qed.
Print Assumptions C34_vector_mass.
Example C34_nonvacuous : admissible 18 3 2 /\ forall x : nat, 3 / INR 18 * 1 + 2 / INR 18 * 1 <= 1.
Proof.
  assert (E : INR 18 = 18) by (cbn [INR]; lra). unfold admissible. rewrite E. repeat split; try lia; try lra. intros. lra.
Qed.

(** C35: the sweeps are synchronous steps of the chains of MarkovSpec.v. *)
Theorem C35_matrix_chain : forall n skew steps p1 p2 v, admissible steps p1 p2 ->
  mm_call n skew steps p1 p2 = Ok v -> forall d, In d (square n) ->
  v d = iterate (mat_step n skew (p1 / INR steps) (p2 / INR steps)) steps (fun c => ind (eq2 c (0, 0)%nat)) d.
Proof.
  intros n skew steps p1 p2 v A E d Hd. rewrite mm_call_ok in E by exact A. injection E as <-. now apply mm_run_sync.
Qed.
Print Assumptions C35_matrix_chain.
Theorem C35_vector_chain : forall n skew steps p1 p2 v, (0 < n)%nat -> admissible steps p1 p2 ->
  mv_call n skew steps p1 p2 = Ok v -> forall d, (d < 2 * n - 1)%nat ->
  v d = iterate (vec_step n skew (p1 / INR steps) (p2 / INR steps)) steps (fun c => ind (Nat.eqb c (n - 1))) d.
Proof.
  intros n skew steps p1 p2 v Hn A E d Hd. rewrite mv_call_ok in E by exact A. injection E as <-. now apply mv_run_sync.
Qed.
Print Assumptions C35_vector_chain.
Example C35_nonvacuous : mat_step 2 (fun _ _ => 1) (1/4) (1/4) (fun c => ind (eq2 c (0, 0)%nat)) (1, 0)%nat = 1 / 4.
Proof. unfold mat_step, square, Rsum. cbn -[Rplus Rmult Rdiv Rminus]. field. Qed.

(** C36 *)
Theorem C36_matrix_eval : forall n skew steps p1 p2, admissible steps p1 p2 ->
  exists v d1 d2 h11 h12 h22,
   mm_eval n skew steps p1 p2 = Ok (v, [d1; d2], [[h11]; [h12; h22]]) /\ mm_call n skew steps p1 p2 = Ok v /\
   (forall c,
     is_derive (fun p => value_at (mm_call n skew steps p p2) c) p1 (d1 c) /\
     is_derive (fun p => value_at (mm_call n skew steps p1 p) c) p2 (d2 c) /\
     is_derive (fun p => grad_at (mm_eval n skew steps p p2) 0 c) p1 (h11 c) /\
     is_derive (fun p => grad_at (mm_eval n skew steps p1 p) 1 c) p2 (h22 c)) /\
   ((forall x y, skew x y = skew y x) -> forall c,
     is_derive (fun p => grad_at (mm_eval n skew steps p1 p) 0 c) p2 (h12 c) /\
     is_derive (fun p => grad_at (mm_eval n skew steps p p2) 1 c) p1 (h12 c)).
Proof. exact mm_eval_correct. Qed.
Print Assumptions C36_matrix_eval.
Theorem C36_vector_eval : forall n skew steps p1 p2, admissible steps p1 p2 ->
  exists v d1 d2 h11 h12 h22,
   mv_eval n skew steps p1 p2 = Ok (v, [d1; d2], [[h11]; [h12; h22]]) /\ mv_call n skew steps p1 p2 = Ok v /\
   forall c,
     is_derive (fun p => value_at (mv_call n skew steps p p2) c) p1 (d1 c) /\
     is_derive (fun p => value_at (mv_call n skew steps p1 p) c) p2 (d2 c) /\
     is_derive (fun p => grad_at (mv_eval n skew steps p p2) 0 c) p1 (h11 c) /\
     is_derive (fun p => grad_at (mv_eval n skew steps p1 p) 0 c) p2 (h12 c) /\
     is_derive (fun p => grad_at (mv_eval n skew steps p p2) 1 c) p1 (h12 c) /\
     is_derive (fun p => grad_at (mv_eval n skew steps p1 p) 1 c) p2 (h22 c).
Proof. exact mv_eval_correct. Qed.
Print Assumptions C36_vector_eval.
(** Finding: with an asymmetric skew the mixed second derivative is wrong. *)
Theorem C36_matrix_mixed_derivative_finding : exists skew h12,
  (exists v g h11 h22, mm_eval 2 skew 2 (1/2) (1/2) = Ok (v, g, [[h11]; [h12; h22]])) /\
  exists d, is_derive (fun p => grad_at (mm_eval 2 skew 2 (1/2) p) 0 (0, 1)%nat) (1/2) d /\ d <> h12 (0, 1)%nat.
Proof. exists asym. exact mm_h12_wrong. Qed.
Print Assumptions C36_matrix_mixed_derivative_finding.

(** C37 *)
Theorem C37_collapse_partition : forall nx ny arr,
  collapse_call (collapse_init None) nx ny arr = Ok
    [Rsum arr (filter (fun c => Nat.ltb (snd c) (fst c)) (grid nx ny));
     Rsum arr (filter (fun c => Nat.eqb (fst c) (snd c)) (grid nx ny));
     Rsum arr (filter (fun c => Nat.ltb (fst c) (snd c)) (grid nx ny))] /\
  exists l, collapse_call (collapse_init None) nx ny arr = Ok l /\ Rsum (fun x => x) l = Rsum arr (grid nx ny).
Proof. intros; split; [apply collapse_default|apply collapse_total]. Qed.
Print Assumptions C37_collapse_partition.
Theorem C37_collapse_gradient : forall cds nx ny u,
  exists g, collapse_grad (Some cds) = Ok g /\
  gradient_on (grid nx ny) (fun _ => True)
    (fun arr => match collapse_call (Some cds) nx ny arr with Ok l => nth u l 0 | Raise _ => 0 end)
    (fun _ c => nth u g (fun _ => 0) c).
Proof. exact collapse_grad_ok. Qed.
Print Assumptions C37_collapse_gradient.
Theorem C37_explicit_conditions_finding : forall cds nx ny arr,
  collapse_call (collapse_init (Some cds)) nx ny arr = Raise AttributeError /\
  collapse_grad (collapse_init (Some cds)) = Raise AttributeError.
Proof. split; reflexivity. Qed.
Print Assumptions C37_explicit_conditions_finding.
(** The feature axes of the gradient keep their order for up to two of them;
    with three they come out rotated (finding). *)
Theorem C37_gradient_shape : forall nx ny k a b c,
  collapse_grad_shape [nx; ny] k = [nx; ny; k] /\
  collapse_grad_shape [a; nx; ny] k = [nx; ny; a; k] /\
  collapse_grad_shape [a; b; nx; ny] k = [nx; ny; a; b; k] /\
  collapse_grad_shape [a; b; c; nx; ny] k = [nx; ny; c; a; b; k].
Proof. repeat split. Qed.
Print Assumptions C37_gradient_shape.
Example C37_nonvacuous : collapse_call (collapse_init None) 2 3 (fun c => INR (10 * fst c + snd c)) = Ok [10; 11; 15].
Proof.
  rewrite collapse_default. f_equal. unfold Rsum, grid; cbn -[INR Rplus].
  cbn [INR]. f_equal; [lra|f_equal; [lra|f_equal; lra]].
Qed.
