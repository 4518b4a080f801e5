(** C91, C92: the constraint of the test loses no fit. *)
From Verif Require Import Prelude DenseModel AnalyticSpec DenseProofs NDArray TensorModel TensorSpec TensorSum FuncModel FTModel FTSpec FTPrim FTBuilt FTFindings LTModel LTSpec LTLik LTDer FTTwoSided Props_Sided Props_Sided2.
From Coq Require Import Reals Lra.
Import List ListNotations.
Open Scope R_scope.
#[local] Existing Instance loose.

Lemma Rsum_const c l : Rsum (fun _ : nat => c) l = INR (length l) * c.
Proof. induction l as [|k l IH]; [rewrite Rsum_nil; cbn; ring|]. rewrite Rsum_cons, IH. cbn [length]. rewrite S_INR. ring. Qed.
(** every value of the log-likelihood is attained with the sum of a and b equal to 0 *)
Theorem C92_constraint_free : forall m gammaln X W a b h, (1 <= m)%nat ->
  exists a' b', Rsum (fun k => a' k + b' k) (seq 0 m) = 0 /\ loglikelihood gammaln X W m a' b' h = loglikelihood gammaln X W m a b h.
Proof.
  intros m g X W a b h Hm. set (t := - Rsum (fun k => a k + b k) (seq 0 m) / (2 * INR m)).
  assert (P : 0 < INR m) by (apply lt_0_INR; lia).
  exists (fun k => a k + t), (fun k => b k + t). split.
  - rewrite (Rsum_ext _ (fun k => (a k + b k) + 2 * t) (seq 0 m)) by (intros k _; ring). rewrite Rsum_plus, Rsum_const, seq_length. unfold t. field. lra.
  - unfold loglikelihood. apply pairs_ext. intros i j _ _. unfold scored, conceded.
    replace (a i + t - (b j + t) + h) with (a i - b j + h) by ring. replace (a j + t - (b i + t) - h) with (a j - b i - h) by ring. reflexivity.
Qed.
Print Assumptions C92_constraint_free.
(** where the score is a multiple of the constraint's gradient, it is 0: stationary
    points under the constraint are stationary points of the log-likelihood *)
Theorem C92_multiplier_zero : forall m X W gammaln a b h l, (1 <= m)%nat -> is_data ([m; m]%nat, []) X -> is_data ([m; m]%nat, []) W ->
  let score := fun p x => at_res (t_grad (loglik (e_Poisson gammaln X W) two_sided) [vec m a; vec m b; PNum h] p) x [] [] [] in
  (forall k, (k < m)%nat -> score 0%nat (k :: nil) = l /\ score 1%nat (k :: nil) = l) -> l = 0.
Proof.
  intros m X W g a b h l Hm HX HW score St. pose proof (C91_flat_direction m X W g a b h Hm HX HW) as F. cbv zeta in F. fold score in F.
  assert (P : 0 < INR m) by (apply lt_0_INR; lia).
  rewrite (Rsum_ext _ (fun _ => l) (seq 0 m)) in F by (intros k Hk; apply in_seq in Hk; apply (St k); lia).
  rewrite (Rsum_ext (fun k => score 1%nat (k :: nil)) (fun _ => l) (seq 0 m)) in F by (intros k Hk; apply in_seq in Hk; apply (St k); lia).
  rewrite !Rsum_const, seq_length in F. apply (Rmult_eq_reg_l (INR m)); [|lra]. lra.
Qed.
Print Assumptions C92_multiplier_zero.
(** the hypotheses are met: one item, X = 2, W = 1, a = b = h = 0 *)
Definition one_cell (v : R) : pval := PT (mkT (mkA [1; 1]%nat (fun _ => v)) 0 0 2 0 [] []).
Example C92_multiplier_nonvacuous : forall gammaln,
  let score := fun p x => at_res (t_grad (loglik (e_Poisson gammaln (one_cell 2) (one_cell 1)) two_sided) [vec 1 (fun _ => 0); vec 1 (fun _ => 0); PNum 0] p) x [] [] [] in
  is_data ([1; 1]%nat, []) (one_cell 2) /\ is_data ([1; 1]%nat, []) (one_cell 1) /\
  forall k, (k < 1)%nat -> score 0%nat (k :: nil) = 0 /\ score 1%nat (k :: nil) = 0.
Proof.
  intros g score. assert (D : forall v, is_data ([1; 1]%nat, []) (one_cell v)).
  { intros v. eexists. split; [reflexivity|]. split; [repeat split|]. constructor; cbn; auto; repeat constructor; cbn; lia. }
  split; [apply D|]. split; [apply D|]. intros k Hk. destruct (C91_score 1 (one_cell 2) (one_cell 1) g (fun _ => 0) (fun _ => 0) 0 k ltac:(lia) Hk (D 2) (D 1)) as (A & B & _). cbv zeta in A, B.
  unfold score. rewrite A, B. cbn [seq]. rewrite !Rsum_cons, !Rsum_nil. unfold scored, conceded.
  replace (0 - 0 + 0) with 0 by ring. replace (0 - 0 - 0) with 0 by ring. rewrite exp_0. destruct k; [|lia]. unfold cell, one_cell. cbn -[Rdiv].
  split; field.
Qed.
Print Assumptions C92_multiplier_nonvacuous.
