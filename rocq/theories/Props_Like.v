(** Properties C18-C24 and C61-C63 (likelihood classes).  [gradient_on] (see
    AnalyticSpec.v): along every curve of parameters differentiable at a point
    of the domain, the derivative of the value is the pairing of the gradient
    with the velocity.  [Y], [D], [H] are the model's value, gradient and
    Hessian as functions of the parameters; coordinates and cells are any finite
    lists. *)
From Coq Require Import Reals List Lra Lia.
From Coquelicot Require Import Coquelicot.
From Verif Require Import AnalyticSpec LikeModel LikeProofs LikeAgg.
Import List ListNotations.
Local Open Scope R_scope.

(** The model is differentiable with gradient [D] and Hessian [H]. *)
Definition model_ok {P K} (coords : list P) (cells : list K) (dom : (P -> R) -> Prop)
    (Y : (P -> R) -> K -> R) (D : (P -> R) -> P -> K -> R) (H : (P -> R) -> P -> P -> K -> R) : Prop :=
  (forall k, In k cells -> gradient_on coords dom (fun th => Y th k) (fun th p => D th p k)) /\
  (forall p k, In p coords -> In k cells -> gradient_on coords dom (fun th => D th p k) (fun th q => H th p q k)).

(** A non-linear model meeting this: y_k = a b + k a. *)
Definition exY (th : bool -> R) (k : nat) : R := th true * th false + INR k * th true.
Definition exD (th : bool -> R) (p : bool) (k : nat) : R := if p then th false + INR k else th true.
Definition exH (th : bool -> R) (p q : bool) (k : nat) : R := if Bool.eqb p q then 0 else 1.
Lemma exY_ok : model_ok [true; false] [0; 1; 2]%nat (fun _ => True) exY exD exH.
Proof.
  split.
  - intros k _ c v t _ Hc.
    assert (Ht := Hc true ltac:(cbn; auto)). assert (Hf := Hc false ltac:(cbn; auto)).
    eapply is_derive_eq.
    + unfold exY. apply D_plus; [apply D_mult; [exact Ht|exact Hf]|apply D_scal; exact Ht].
    + unfold Rsum, exD; cbn. ring.
  - intros p k _ _ c v t _ Hc.
    assert (Ht := Hc true ltac:(cbn; auto)). assert (Hf := Hc false ltac:(cbn; auto)).
    destruct p; unfold exD, exH.
    + eapply is_derive_eq; [apply D_plus; [exact Hf|apply D_const]|]. unfold Rsum; cbn. ring.
    + eapply is_derive_eq; [exact Ht|]. unfold Rsum; cbn. ring.
Qed.

Theorem C18_poisson :
  forall (P K : Type) (coords : list P) (cells : list K) (gammaln : R -> R) dom Y D H (X N : K -> R),
  model_ok coords cells dom Y D H ->
  gradient_on coords dom (fun th => Poisson_like cells gammaln X N (Y th)) (fun th => Poisson_grad cells X N (Y th) (D th)) /\
  forall p, In p coords -> gradient_on coords dom (fun th => Poisson_grad cells X N (Y th) (D th) p)
     (fun th q => Poisson_hess cells X N (Y th) (D th) (H th) p q).
Proof. intros P K coords cells gl dom Y D H X N [HY HD]. split; [now apply poisson_g|intros; now apply poisson_h]. Qed.
Print Assumptions C18_poisson.
Example C18_nonvacuous : model_ok [true; false] [0; 1; 2]%nat (fun _ => True) exY exD exH.
Proof. exact exY_ok. Qed.

Theorem C19_zero_inflated_poisson :
  forall (P K : Type) (coords : list P) (cells : list K) (gammaln : R -> R) dom Y D H (s : R) (X N Z : K -> R),
  0 <= s -> model_ok coords cells dom Y D H ->
  gradient_on coords dom (fun th => ZIP_like cells gammaln s X N Z (Y th)) (fun th => ZIP_grad cells s X N (Y th) (D th)) /\
  forall p, In p coords -> gradient_on coords dom (fun th => ZIP_grad cells s X N (Y th) (D th) p)
     (fun th q => ZIP_hess cells s X N (Y th) (D th) (H th) p q).
Proof. intros P K coords cells gl dom Y D H s X N Z Hs [HY HD]. split; [now apply zip_g|intros; now apply zip_h]. Qed.
Print Assumptions C19_zero_inflated_poisson.

Theorem C20_logistic :
  forall (P K : Type) (coords : list P) (cells : list K) dom Y D H (X N : K -> R),
  model_ok coords cells dom Y D H ->
  gradient_on coords dom (fun th => Logistic_like cells X N (Y th)) (fun th => Logistic_grad cells X N (Y th) (D th)) /\
  forall p, In p coords -> gradient_on coords dom (fun th => Logistic_grad cells X N (Y th) (D th) p)
     (fun th q => Logistic_hess cells X N (Y th) (D th) (H th) p q).
Proof. intros P K coords cells dom Y D H X N [HY HD]. split; [now apply logistic_g|intros; now apply logistic_h]. Qed.
Print Assumptions C20_logistic.

(** A positive model: y_(k,u) = exp(a (k + u)) + 1, for the finite estimators. *)
Definition exYf (th : bool -> R) (k u : nat) : R := exp (th true * INR (k + u)) + 1.
Definition exDf (th : bool -> R) (p : bool) (k u : nat) : R := if p then exp (th true * INR (k + u)) * INR (k + u) else 0.
Definition exHf (th : bool -> R) (p q : bool) (k u : nat) : R :=
  if andb p q then exp (th true * INR (k + u)) * INR (k + u) * INR (k + u) else 0.
Definition finite_model_ok {P K U} (coords : list P) (feats : list K) (outs : list U) (dom : (P -> R) -> Prop)
    (Y : (P -> R) -> K -> U -> R) (D : (P -> R) -> P -> K -> U -> R) (H : (P -> R) -> P -> P -> K -> U -> R) : Prop :=
  (forall k u, In k feats -> In u outs -> gradient_on coords dom (fun th => Y th k u) (fun th p => D th p k u)) /\
  (forall p k u, In p coords -> In k feats -> In u outs -> gradient_on coords dom (fun th => D th p k u) (fun th q => H th p q k u)) /\
  (forall th k u, dom th -> In k feats -> In u outs -> 0 < Y th k u).
Lemma exYf_ok : finite_model_ok [true; false] [0; 1]%nat [0; 1; 2]%nat (fun _ => True) exYf exDf exHf.
Proof.
  split; [|split].
  - intros k u _ _ c v t _ Hc.
    assert (Ht := Hc true ltac:(cbn; auto)).
    eapply is_derive_eq.
    + unfold exYf. apply D_plus; [|apply D_const]. apply (D_exp (fun s => c s true * INR (k + u))).
      apply D_mult; [exact Ht|apply D_const].
    + unfold Rsum, exDf; cbn [map fold_right]. ring.
  - intros p k u _ _ _ c v t _ Hc. assert (Ht := Hc true ltac:(cbn; auto)).
    destruct p; unfold exDf, exHf.
    + eapply is_derive_eq.
      * apply D_mult; [|apply D_const]. apply (D_exp (fun s => c s true * INR (k + u))).
        apply D_mult; [exact Ht|apply D_const].
      * unfold Rsum; cbn [map fold_right andb]. ring.
    + eapply is_derive_eq; [apply D_const|]. unfold Rsum; cbn [map fold_right andb]. ring.
  - intros th k u _ _ _. unfold exYf. pose proof (exp_pos (th true * INR (k + u))). lra.
Qed.

Theorem C21_finite :
  forall (P K U : Type) (coords : list P) (feats : list K) (outs : list U) dom Y D H (N : K -> U -> R),
  finite_model_ok coords feats outs dom Y D H ->
  gradient_on coords dom (fun th => Finite_like feats outs N (Y th)) (fun th => Finite_grad feats outs N (Y th) (D th)) /\
  forall p, In p coords -> gradient_on coords dom (fun th => Finite_grad feats outs N (Y th) (D th) p)
     (fun th q => Finite_hess feats outs N (Y th) (D th) (H th) p q).
Proof. intros P K U coords feats outs dom Y D H N (HY & HD & Hp). split; [now apply finite_g|intros; now apply finite_h]. Qed.
Print Assumptions C21_finite.
Example C21_nonvacuous : finite_model_ok [true; false] [0; 1]%nat [0; 1; 2]%nat (fun _ => True) exYf exDf exHf.
Proof. exact exYf_ok. Qed.

Theorem C22_normalized_finite :
  forall (P K : Type) (coords : list P) (cells : list K) dom Y D H (N : K -> R),
  model_ok coords cells dom Y D H -> (forall th k, dom th -> In k cells -> 0 < Y th k) ->
  gradient_on coords dom (fun th => NormFinite_like cells N (Y th)) (fun th => NormFinite_grad cells N (Y th) (D th)) /\
  forall p, In p coords -> gradient_on coords dom (fun th => NormFinite_grad cells N (Y th) (D th) p)
     (fun th q => NormFinite_hess cells N (Y th) (D th) (H th) p q).
Proof. intros P K coords cells dom Y D H N [HY HD] Hp. split; [now apply normfinite_g|intros; now apply normfinite_h]. Qed.
Print Assumptions C22_normalized_finite.

Theorem C23_negative_binomial :
  forall (P K : Type) (coords : list P) (cells : list K) (gammaln : R -> R) dom Y D H (r : R) (X N : K -> R),
  0 < r -> model_ok coords cells dom Y D H ->
  gradient_on coords dom (fun th => NegBin_like cells gammaln r X N (Y th)) (fun th => NegBin_grad cells r X N (Y th) (D th)) /\
  forall p, In p coords -> gradient_on coords dom (fun th => NegBin_grad cells r X N (Y th) (D th) p)
     (fun th q => NegBin_hess cells r X N (Y th) (D th) (H th) p q).
Proof. intros P K coords cells gl dom Y D H r X N Hr [HY HD]. split; [now apply negbin_g|intros; now apply negbin_h]. Qed.
Print Assumptions C23_negative_binomial.

(** C24: [loglik pmf y obs] is the sum over the individual observations
    (cell, value) of the log of the probability of the value; [countN], [sumX],
    [zerosZ] are the aggregates per cell. *)
Theorem C24_poisson_aggregates :
  forall (K : Type) (eq_dec : forall a b : K, {a = b} + {a <> b}) (gammaln : R -> R) (cells : list K) (obs : list (K * nat)),
  NoDup cells -> Forall (fun o => In (fst o) cells) obs ->
  exists C, forall y, Poisson_like cells gammaln (sumX eq_dec obs) (countN eq_dec obs) y =
    loglik (fun y => poisson_pmf (exp y)) y obs + C.
Proof. exact @poisson_agg. Qed.
Print Assumptions C24_poisson_aggregates.
Theorem C24_zip_aggregates :
  forall (K : Type) (eq_dec : forall a b : K, {a = b} + {a <> b}) (gammaln : R -> R) (s : R) (cells : list K) (obs : list (K * nat)),
  0 < s -> NoDup cells -> Forall (fun o => In (fst o) cells) obs ->
  exists C, forall y, ZIP_like cells gammaln s (sumX eq_dec obs) (countN eq_dec obs) (zerosZ eq_dec obs) y =
    loglik (fun y => zip_pmf s (exp y)) y obs + C.
Proof. exact @zip_agg. Qed.
Print Assumptions C24_zip_aggregates.
Theorem C24_negbin_aggregates :
  forall (K : Type) (eq_dec : forall a b : K, {a = b} + {a <> b}) (gammaln : R -> R) (r : R) (cells : list K) (obs : list (K * nat)),
  0 < r -> NoDup cells -> Forall (fun o => In (fst o) cells) obs ->
  exists C, forall y, NegBin_like cells gammaln r (sumX eq_dec obs) (countN eq_dec obs) y =
    loglik (fun y => negbin_pmf r (exp y)) y obs + C.
Proof. exact @negbin_agg. Qed.
Print Assumptions C24_negbin_aggregates.
Theorem C24_logistic_aggregates :
  forall (K : Type) (eq_dec : forall a b : K, {a = b} + {a <> b}) (cells : list K) (obs : list (K * nat)),
  NoDup cells -> Forall (fun o => In (fst o) cells /\ (snd o <= 1)%nat) obs ->
  forall y, Logistic_like cells (sumX eq_dec obs) (countN eq_dec obs) y =
    loglik (fun y => bernoulli_pmf (1 / (1 + exp (- y)))) y obs.
Proof. exact @logistic_agg. Qed.
Print Assumptions C24_logistic_aggregates.
Example C24_nonvacuous :
  let obs := [(true, 1); (true, 0); (false, 1); (true, 1)]%nat in
  NoDup [true; false] /\ Forall (fun o => In (fst o) [true; false] /\ (snd o <= 1)%nat) obs /\
  sumX Bool.bool_dec obs true = 2 /\ countN Bool.bool_dec obs true = 3 /\ zerosZ Bool.bool_dec obs true = 1.
Proof.
  cbv zeta. split; [repeat constructor; cbn; intuition congruence|]. split.
  - repeat (apply Forall_cons; [cbn; split; [auto|lia]|]). constructor.
  - unfold sumX, countN, zerosZ, Rsum; cbn. repeat split; lra.
Qed.

(** C61: for models linear in the parameters (zero second derivatives) the
    Hessian of the likelihood is negative semi-definite. *)
Theorem C61_concave_poisson : forall (P K : Type) (coords : list P) (cells : list K) X N y (der : P -> K -> R) v,
  (forall k, In k cells -> 0 <= N k) ->
  Rsum (fun p => Rsum (fun q => v p * Poisson_hess cells X N y der (fun _ _ _ => 0) p q * v q) coords) coords <= 0.
Proof. exact @poisson_concave. Qed.
Print Assumptions C61_concave_poisson.
Theorem C61_concave_zip : forall (P K : Type) (coords : list P) (cells : list K) s X N y (der : P -> K -> R) v,
  0 <= s -> (forall k, In k cells -> 0 <= N k) ->
  Rsum (fun p => Rsum (fun q => v p * ZIP_hess cells s X N y der (fun _ _ _ => 0) p q * v q) coords) coords <= 0.
Proof. exact @zip_concave. Qed.
Print Assumptions C61_concave_zip.
Theorem C61_concave_logistic : forall (P K : Type) (coords : list P) (cells : list K) X N y (der : P -> K -> R) v,
  (forall k, In k cells -> 0 <= N k) ->
  Rsum (fun p => Rsum (fun q => v p * Logistic_hess cells X N y der (fun _ _ _ => 0) p q * v q) coords) coords <= 0.
Proof. exact @logistic_concave. Qed.
Print Assumptions C61_concave_logistic.
Theorem C61_concave_negbin : forall (P K : Type) (coords : list P) (cells : list K) r X N y (der : P -> K -> R) v,
  0 < r -> (forall k, In k cells -> 0 <= N k /\ 0 <= X k) ->
  Rsum (fun p => Rsum (fun q => v p * NegBin_hess cells r X N y der (fun _ _ _ => 0) p q * v q) coords) coords <= 0.
Proof. exact @negbin_concave. Qed.
Print Assumptions C61_concave_negbin.
Example C61_nonvacuous : exists v : bool -> R,
  Rsum (fun p => Rsum (fun q => v p * Poisson_hess [0%nat] (fun _ => 1) (fun _ => 1) (fun _ => 0) (fun _ _ => 1) (fun _ _ _ => 0) p q * v q) [true; false]) [true; false] < 0.
Proof.
  exists (fun _ => 1). unfold Poisson_hess, Rsum; cbn. rewrite exp_0. lra.
Qed.

(** C62 *)
Theorem C62_finite_scale_free : forall (K U : Type) (feats : list K) (outs : list U) N y (c : K -> R),
  (forall k, In k feats -> 0 < c k) -> (forall k u, In k feats -> In u outs -> 0 < y k u) ->
  Finite_like feats outs N (fun k u => c k * y k u) = Finite_like feats outs N y.
Proof. exact @finite_scale. Qed.
Print Assumptions C62_finite_scale_free.
Theorem C62_finite_is_normalized : forall (K U : Type) (feats : list K) (outs : list U) N y,
  (forall k u, In k feats -> In u outs -> 0 < y k u) ->
  Finite_like feats outs N y =
  NormFinite_like (list_prod feats outs) (fun ku => N (fst ku) (snd ku))
    (fun ku => y (fst ku) (snd ku) / Rsum (y (fst ku)) outs).
Proof. exact @finite_normalized. Qed.
Print Assumptions C62_finite_is_normalized.
Example C62_nonvacuous : (forall k u, In k [0; 1]%nat -> In u [0; 1; 2]%nat -> 0 < exYf (fun _ => 1) k u).
Proof. intros k u _ _. unfold exYf. pose proof (exp_pos (1 * INR (k + u))). lra. Qed.

(** C63: the gradient assembled by the code is the gradient of (total of N)
    times the objective that fit compares. *)
Theorem C63_objective_gradient :
  forall (P : Type) (coords : list P) dom (like : (P -> R) -> R) (glike : (P -> R) -> P -> R)
   (regs : list (((P -> R) -> R) * ((P -> R) -> P -> R))) (Nt : R), Nt <> 0 ->
  gradient_on coords dom like glike ->
  (forall h, In h regs -> gradient_on coords dom (fst h) (snd h)) ->
  gradient_on coords dom (fun th => objective (like th) (map (fun h => fst h th) regs) Nt)
    (fun th p => (glike th p - Rsum (fun h => snd h th p) regs) / Nt).
Proof. exact @objective_gradient. Qed.
Print Assumptions C63_objective_gradient.
Example C63_nonvacuous :
  gradient_on [true; false] (fun _ => True) (fun th => exY th 1%nat) (fun th p => exD th p 1%nat).
Proof. apply (proj1 exY_ok). cbn; auto. Qed.
