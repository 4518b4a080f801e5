(** Proofs about the likelihood classes. *)
From Coq Require Import Reals List Lra.
From Coquelicot Require Import Coquelicot.
From Verif Require Import AnalyticSpec LikeModel.
Import List ListNotations.
Local Open Scope R_scope.

Section Generic.
Context {P K : Type}.
Variables (coords : list P) (cells : list K).
Variables (dom : (P -> R) -> Prop) (Y : (P -> R) -> K -> R) (D : (P -> R) -> P -> K -> R) (H : (P -> R) -> P -> P -> K -> R).
Hypothesis HY : forall k, In k cells -> gradient_on coords dom (fun th => Y th k) (fun th p => D th p k).
Hypothesis HD : forall p k, In p coords -> In k cells -> gradient_on coords dom (fun th => D th p k) (fun th q => H th p q k).

Lemma cell_grad (ell delta : K -> R -> R) :
  (forall th k, dom th -> In k cells -> is_derive (ell k) (Y th k) (delta k (Y th k))) ->
  gradient_on coords dom (fun th => Rsum (fun k => ell k (Y th k)) cells)
    (fun th p => Rsum (fun k => D th p k * delta k (Y th k)) cells).
Proof.
  intros Hl c v t Hd Hc.
  eapply is_derive_eq.
  - apply (is_derive_Rsum (fun s k => ell k (Y (c s) k))
             (fun k => delta k (Y (c t) k) * Rsum (fun p => D (c t) p k * v p) coords)).
    intros k Hk. apply (D_comp (ell k) (fun s => Y (c s) k)).
    + apply Hl; auto.
    + apply (HY k Hk c v t Hd Hc).
  - rewrite (Rsum_ext (fun k => _) (fun k => Rsum (fun p => delta k (Y (c t) k) * (D (c t) p k * v p)) coords))
      by (intros; now rewrite Rsum_scal).
    rewrite Rsum_swap. apply Rsum_ext. intros p _. rewrite <- Rsum_scal_r. apply Rsum_ext. intros; ring.
Qed.

Lemma cell_hess (delta delta2 : K -> R -> R) p : In p coords ->
  (forall th k, dom th -> In k cells -> is_derive (delta k) (Y th k) (delta2 k (Y th k))) ->
  gradient_on coords dom (fun th => Rsum (fun k => D th p k * delta k (Y th k)) cells)
    (fun th q => Rsum (fun k => H th p q k * delta k (Y th k) + D th p k * D th q k * delta2 k (Y th k)) cells).
Proof.
  intros Hp Hl c v t Hd Hc.
  eapply is_derive_eq.
  - apply (is_derive_Rsum (fun s k => D (c s) p k * delta k (Y (c s) k))
             (fun k => Rsum (fun q => H (c t) p q k * v q) coords * delta k (Y (c t) k) +
                       D (c t) p k * (delta2 k (Y (c t) k) * Rsum (fun q => D (c t) q k * v q) coords))).
    intros k Hk. apply (D_mult (fun s => D (c s) p k) (fun s => delta k (Y (c s) k))).
    + apply (HD p k Hp Hk c v t Hd Hc).
    + apply (D_comp (delta k) (fun s => Y (c s) k)).
      * apply Hl; auto.
      * apply (HY k Hk c v t Hd Hc).
  - rewrite (Rsum_ext (fun k => _) (fun k => Rsum (fun q => (H (c t) p q k * delta k (Y (c t) k) + D (c t) p k * D (c t) q k * delta2 k (Y (c t) k)) * v q) coords)).
    + rewrite Rsum_swap. apply Rsum_ext. intros q _. now rewrite Rsum_scal_r.
    + intros k _. rewrite <- Rsum_scal_r, <- Rsum_scal, <- Rsum_scal, <- Rsum_plus. apply Rsum_ext. intros; ring.
Qed.
End Generic.

Lemma gradient_on_ext {P} (coords : list P) (dom : (P -> R) -> Prop) (f g : (P -> R) -> R) (df dg : (P -> R) -> P -> R) :
  (forall th, f th = g th) -> (forall th p, dom th -> In p coords -> df th p = dg th p) ->
  gradient_on coords dom f df -> gradient_on coords dom g dg.
Proof.
  intros Hf Hd Hg c v t Hdm Hc. specialize (Hg c v t Hdm Hc).
  apply (is_derive_ext (fun s => f (c s))); [intros; apply Hf|].
  eapply is_derive_eq; [exact Hg|]. apply Rsum_ext. intros p Hp. now rewrite Hd.
Qed.

Section Classes.
Context {P K : Type}.
Variables (coords : list P) (cells : list K) (gammaln : R -> R).
Variables (dom : (P -> R) -> Prop) (Y : (P -> R) -> K -> R) (D : (P -> R) -> P -> K -> R) (H : (P -> R) -> P -> P -> K -> R).
Hypothesis HY : forall k, In k cells -> gradient_on coords dom (fun th => Y th k) (fun th p => D th p k).
Hypothesis HD : forall p k, In p coords -> In k cells -> gradient_on coords dom (fun th => D th p k) (fun th q => H th p q k).

Lemma Dy_exp y : is_derive (fun s => exp s) y (exp y).
Proof. apply is_derive_Reals, derivable_pt_lim_exp. Qed.

Lemma poisson_g X N : gradient_on coords dom (fun th => Poisson_like cells gammaln X N (Y th))
   (fun th => Poisson_grad cells X N (Y th) (D th)).
Proof.
  eapply gradient_on_ext; [| |apply (cell_grad coords cells dom Y D HY
    (fun k y => X k * y - N k * exp y - gammaln (X k + 1)) (fun k y => X k - N k * exp y))]; try reflexivity.
  intros th k _ _. set (y := Y th k). eapply is_derive_eq.
  - apply D_minus; [apply D_minus; [apply D_scal, D_id|apply D_scal, Dy_exp]|apply D_const].
  - ring.
Qed.
Lemma poisson_h X N p : In p coords -> gradient_on coords dom (fun th => Poisson_grad cells X N (Y th) (D th) p)
   (fun th q => Poisson_hess cells X N (Y th) (D th) (H th) p q).
Proof.
  intros Hp. eapply gradient_on_ext; [| |apply (cell_hess coords cells dom Y D H HY HD
    (fun k y => X k - N k * exp y) (fun k y => - (N k * exp y)) p Hp)]; try reflexivity.
  - intros th q _ _. apply Rsum_ext. intros k _. cbv zeta. ring.
  - intros th k _ _. set (y := Y th k). eapply is_derive_eq.
    + apply D_minus; [apply D_const|apply D_scal, Dy_exp].
    + ring.
Qed.

(** Zero inflated *)
Lemma zip_den_pos s y : 0 <= s -> 0 < exp (exp y) + s - 1.
Proof.
  intros Hs. assert (1 < exp (exp y)); [|lra]. rewrite <- exp_0. apply exp_increasing, exp_pos.
Qed.
Lemma zip_den2_pos s y : 0 <= s -> 0 < 1 + (s - 1) * exp (- exp y).
Proof.
  intros Hs. pose proof (exp_pos (- exp y)). assert (exp (- exp y) < 1).
  { rewrite <- exp_0. apply exp_increasing. pose proof (exp_pos y). lra. }
  nra.
Qed.
Lemma zip_rel s y : 0 <= s -> / (exp (exp y) + s - 1) * exp (exp y) = / (1 + (s - 1) * exp (- exp y)).
Proof.
  intros Hs. pose proof (zip_den_pos s y Hs). pose proof (zip_den2_pos s y Hs).
  pose proof (exp_pos (exp y)) as Hp.
  assert (E : exp (- exp y) = / exp (exp y)) by apply exp_Ropp. rewrite E in *.
  assert (E2 : 1 + (s - 1) * / exp (exp y) = (exp (exp y) + s - 1) * / exp (exp y)).
  { field. lra. }
  rewrite E2. rewrite Rinv_mult. rewrite Rinv_inv. reflexivity.
Qed.

Lemma zip_g s X N Z : 0 <= s -> gradient_on coords dom (fun th => ZIP_like cells gammaln s X N Z (Y th))
   (fun th => ZIP_grad cells s X N (Y th) (D th)).
Proof.
  intros Hs. eapply gradient_on_ext; [| |apply (cell_grad coords cells dom Y D HY
    (fun k y => X k * y + Z k * ln s - N k * ln (exp (exp y) + s - 1) - gammaln (X k + 1))
    (fun k y => X k - N k * exp y / (1 + (s - 1) * exp (- exp y))))]; try reflexivity.
  intros th k _ _. set (y := Y th k). eapply is_derive_eq.
  - apply D_minus; [apply D_minus; [apply D_plus; [apply D_scal, D_id|apply D_const]|]|apply D_const].
    apply D_scal. apply (D_ln (fun y => exp (exp y) + s - 1)); [apply zip_den_pos; auto|].
    apply D_minus; [|apply D_const]. apply D_plus; [|apply D_const].
    apply (D_exp exp). apply Dy_exp.
  - transitivity (X k - N k * exp y * (/ (exp (exp y) + s - 1) * exp (exp y))); [ring|].
    rewrite zip_rel by auto. unfold Rdiv. ring.
Qed.
Lemma zip_h s X N p : 0 <= s -> In p coords -> gradient_on coords dom (fun th => ZIP_grad cells s X N (Y th) (D th) p)
   (fun th q => ZIP_hess cells s X N (Y th) (D th) (H th) p q).
Proof.
  intros Hs Hp. eapply gradient_on_ext; [| |apply (cell_hess coords cells dom Y D H HY HD
    (fun k y => X k - N k * exp y / (1 + (s - 1) * exp (- exp y)))
    (fun k y => let t := exp y / (1 + (s - 1) * exp (- exp y)) in
        - (N k * t * (1 + t * (s - 1) * exp (- exp y)))) p Hp)]; try reflexivity.
  - intros th q _ _. apply Rsum_ext. intros k _. cbv zeta. unfold Rdiv. ring.
  - intros th k _ _. set (y := Y th k). cbv zeta. pose proof (zip_den2_pos s y Hs). eapply is_derive_eq.
    + apply D_minus; [apply D_const|].
      apply (D_div (fun y => N k * exp y) (fun y => 1 + (s - 1) * exp (- exp y))); [lra|apply D_scal, Dy_exp|].
      apply D_plus; [apply D_const|]. apply D_scal. apply (D_exp (fun y => - exp y)). apply D_opp, Dy_exp.
    + cbn beta. field. lra.
Qed.

(** Logistic *)
Lemma log_den_pos y : 0 < 1 + exp (- y).
Proof. pose proof (exp_pos (- y)); lra. Qed.
Lemma logistic_g X N : gradient_on coords dom (fun th => Logistic_like cells X N (Y th))
   (fun th => Logistic_grad cells X N (Y th) (D th)).
Proof.
  eapply gradient_on_ext; [| |apply (cell_grad coords cells dom Y D HY
    (fun k y => - (N k * ln (1 + exp (- y)) + (N k - X k) * y)) (fun k y => X k - N k / (1 + exp (- y))))]; try reflexivity.
  - intros th. unfold Logistic_like. now rewrite <- Rsum_opp.
  - intros th k _ _. set (y := Y th k). pose proof (log_den_pos y). eapply is_derive_eq.
    + apply D_opp, D_plus; [|apply D_scal, D_id]. apply D_scal.
      apply (D_ln (fun y => 1 + exp (- y))); [auto|]. apply D_plus; [apply D_const|].
      apply (D_exp (fun y => - y)), D_opp, D_id.
    + cbn beta. field. lra.
Qed.
Lemma logistic_h X N p : In p coords -> gradient_on coords dom (fun th => Logistic_grad cells X N (Y th) (D th) p)
   (fun th q => Logistic_hess cells X N (Y th) (D th) (H th) p q).
Proof.
  intros Hp. eapply gradient_on_ext; [| |apply (cell_hess coords cells dom Y D H HY HD
    (fun k y => X k - N k / (1 + exp (- y)))
    (fun k y => let pr := 1 / (1 + exp (- y)) in - (pr * (1 - pr) * N k)) p Hp)]; try reflexivity.
  - intros th q _ _. apply Rsum_ext. intros k _. cbv zeta. unfold Rdiv. ring.
  - intros th k _ _. set (y := Y th k). cbv zeta. pose proof (log_den_pos y). eapply is_derive_eq.
    + apply D_minus; [apply D_const|].
      apply (D_div (fun y => N k) (fun y => 1 + exp (- y))); [lra|apply D_const|].
      apply D_plus; [apply D_const|]. apply (D_exp (fun y => - y)), D_opp, D_id.
    + cbn beta. field. lra.
Qed.

(** NormalizedFinite *)
Lemma normfinite_g N : (forall th k, dom th -> In k cells -> 0 < Y th k) ->
  gradient_on coords dom (fun th => NormFinite_like cells N (Y th)) (fun th => NormFinite_grad cells N (Y th) (D th)).
Proof.
  intros Hpos. eapply gradient_on_ext; [| |apply (cell_grad coords cells dom Y D HY
    (fun k y => N k * ln y) (fun k y => N k / y))]; try reflexivity.
  - intros th p _ _. apply Rsum_ext. intros k _. unfold Rdiv. ring.
  - intros th k Hd Hk. specialize (Hpos th k Hd Hk). eapply is_derive_eq.
    + apply D_scal. apply (D_ln (fun y => y)); [auto|apply D_id].
    + field. lra.
Qed.
Lemma normfinite_h N p : In p coords -> (forall th k, dom th -> In k cells -> 0 < Y th k) ->
  gradient_on coords dom (fun th => NormFinite_grad cells N (Y th) (D th) p)
   (fun th q => NormFinite_hess cells N (Y th) (D th) (H th) p q).
Proof.
  intros Hp Hpos. eapply gradient_on_ext; [| |apply (cell_hess coords cells dom Y D H HY HD
    (fun k y => N k / y) (fun k y => - N k / y ^ 2) p Hp)].
  - intros th. apply Rsum_ext. intros k _. unfold Rdiv. ring.
  - intros th q Hd _. apply Rsum_ext. intros k Hk. specialize (Hpos th k Hd Hk). cbv zeta. field. lra.
  - intros th k Hd Hk. specialize (Hpos th k Hd Hk). eapply is_derive_eq.
    + apply (D_div (fun y => N k) (fun y => y)); [lra|apply D_const|apply D_id].
    + field. lra.
Qed.

(** NegativeBinomial *)
Lemma nb_den_pos r y : 0 < r -> 0 < exp y + r.
Proof. pose proof (exp_pos y); lra. Qed.
Lemma negbin_g r X N : 0 < r -> gradient_on coords dom (fun th => NegBin_like cells gammaln r X N (Y th))
   (fun th => NegBin_grad cells r X N (Y th) (D th)).
Proof.
  intros Hr. eapply gradient_on_ext; [| |apply (cell_grad coords cells dom Y D HY
    (fun k y => gammaln (X k + r) - gammaln (X k + 1) + r * ln r - gammaln r + X k * y - (X k + r * N k) * ln (r + exp y))
    (fun k y => X k - (X k + r * N k) * exp y / (exp y + r)))]; try reflexivity.
  intros th k _ _. set (y := Y th k). pose proof (nb_den_pos r y Hr). eapply is_derive_eq.
  - apply D_minus; [apply D_plus; [apply D_const|apply D_scal, D_id]|]. apply D_scal.
    apply (D_ln (fun y => r + exp y)); [lra|]. apply D_plus; [apply D_const|apply Dy_exp].
  - cbn beta. field. lra.
Qed.
Lemma negbin_h r X N p : 0 < r -> In p coords -> gradient_on coords dom (fun th => NegBin_grad cells r X N (Y th) (D th) p)
   (fun th q => NegBin_hess cells r X N (Y th) (D th) (H th) p q).
Proof.
  intros Hr Hp. eapply gradient_on_ext; [| |apply (cell_hess coords cells dom Y D H HY HD
    (fun k y => X k - (X k + r * N k) * exp y / (exp y + r))
    (fun k y => let s := exp y / (exp y + r) in (X k + r * N k) * s * s - X k + (X k - (X k + r * N k) * s)) p Hp)]; try reflexivity.
  - intros th q _ _. apply Rsum_ext. intros k _. cbv zeta. unfold Rdiv. ring.
  - intros th k _ _. set (y := Y th k). cbv zeta. pose proof (nb_den_pos r y Hr). eapply is_derive_eq.
    + apply D_minus; [apply D_const|].
      apply (D_div (fun y => (X k + r * N k) * exp y) (fun y => exp y + r)); [lra|apply D_scal, Dy_exp|].
      apply D_plus; [apply Dy_exp|apply D_const].
    + cbn beta. field. lra.
Qed.
End Classes.

(** Finite *)
Section FiniteP.
Context {P K U : Type}.
Variables (coords : list P) (feats : list K) (outs : list U).
Variables (dom : (P -> R) -> Prop) (Y : (P -> R) -> K -> U -> R) (D : (P -> R) -> P -> K -> U -> R)
          (H : (P -> R) -> P -> P -> K -> U -> R).
Hypothesis HY : forall k u, In k feats -> In u outs -> gradient_on coords dom (fun th => Y th k u) (fun th p => D th p k u).
Hypothesis HD : forall p k u, In p coords -> In k feats -> In u outs ->
  gradient_on coords dom (fun th => D th p k u) (fun th q => H th p q k u).
Hypothesis Hpos : forall th k u, dom th -> In k feats -> In u outs -> 0 < Y th k u.

Lemma sumdims_g (f : (P -> R) -> K -> U -> R) (df : (P -> R) -> P -> K -> U -> R) k :
  (forall u, In u outs -> gradient_on coords dom (fun th => f th k u) (fun th p => df th p k u)) ->
  gradient_on coords dom (fun th => sum_dims outs (f th) k) (fun th p => sum_dims outs (df th p) k).
Proof.
  intros Hf c v t Hd Hc. eapply is_derive_eq.
  - apply (is_derive_Rsum (fun s u => f (c s) k u) (fun u => Rsum (fun p => df (c t) p k u * v p) coords)).
    intros u Hu. apply (Hf u Hu c v t Hd Hc).
  - rewrite Rsum_swap. apply Rsum_ext. intros p _. unfold sum_dims. now rewrite Rsum_scal_r.
Qed.

Lemma z_pos th k u : dom th -> In k feats -> In u outs -> 0 < sum_dims outs (Y th) k.
Proof.
  intros Hd Hk Hu. apply Rsum_pos; [intros E; rewrite E in Hu; destruct Hu|]. intros; now apply Hpos.
Qed.

Lemma sum_all_g (f : (P -> R) -> K -> U -> R) (df : (P -> R) -> P -> K -> U -> R) :
  (forall k u, In k feats -> In u outs -> gradient_on coords dom (fun th => f th k u) (fun th p => df th p k u)) ->
  gradient_on coords dom (fun th => sum_all feats outs (f th)) (fun th p => sum_all feats outs (df th p)).
Proof.
  intros Hf c v t Hd Hc. eapply is_derive_eq.
  - apply (is_derive_Rsum (fun s k => Rsum (f (c s) k) outs) (fun k => Rsum (fun u => Rsum (fun p => df (c t) p k u * v p) coords) outs)).
    intros k Hk. apply (is_derive_Rsum (fun s u => f (c s) k u)). intros u Hu. apply (Hf k u Hk Hu c v t Hd Hc).
  - unfold sum_all. rewrite (Rsum_ext (fun k => _) (fun k => Rsum (fun p => Rsum (fun u => df (c t) p k u * v p) outs) coords))
      by (intros; apply Rsum_swap).
    rewrite Rsum_swap. apply Rsum_ext. intros p _. rewrite <- Rsum_scal_r. apply Rsum_ext. intros k _. now rewrite Rsum_scal_r.
Qed.

Lemma finite_g N : gradient_on coords dom (fun th => Finite_like feats outs N (Y th))
  (fun th => Finite_grad feats outs N (Y th) (D th)).
Proof.
  apply sum_all_g. intros k u Hk Hu c v t Hd Hc.
  pose proof (Hpos (c t) k u Hd Hk Hu) as Hy. pose proof (z_pos (c t) k u Hd Hk Hu) as Hz.
  eapply is_derive_eq.
  - apply D_scal, D_minus.
    + apply (D_ln (fun s => Y (c s) k u)); [auto|]. apply (HY k u Hk Hu c v t Hd Hc).
    + apply (D_ln (fun s => sum_dims outs (Y (c s)) k)); [auto|].
      apply (sumdims_g Y D k (fun u Hu => HY k u Hk Hu) c v t Hd Hc).
  - rewrite <- !Rsum_scal, <- Rsum_minus, <- Rsum_scal. apply Rsum_ext. intros p _. cbn beta. field. split; lra.
Qed.

Lemma finite_h N p : In p coords -> gradient_on coords dom (fun th => Finite_grad feats outs N (Y th) (D th) p)
  (fun th q => Finite_hess feats outs N (Y th) (D th) (H th) p q).
Proof.
  intros Hp. apply (sum_all_g (fun th k u => N k u * (D th p k u / Y th k u - sum_dims outs (D th p) k / sum_dims outs (Y th) k))
    (fun th q k u => N k u * ((H th p q k u - D th p k u * D th q k u / Y th k u) / Y th k u -
       (sum_dims outs (H th p q) k - sum_dims outs (D th p) k * sum_dims outs (D th q) k / sum_dims outs (Y th) k) / sum_dims outs (Y th) k))).
  intros k u Hk Hu c v t Hd Hc.
  pose proof (Hpos (c t) k u Hd Hk Hu) as Hy. pose proof (z_pos (c t) k u Hd Hk Hu) as Hz.
  eapply is_derive_eq.
  - apply D_scal, D_minus.
    + apply (D_div (fun s => D (c s) p k u) (fun s => Y (c s) k u)); [lra| |].
      * apply (HD p k u Hp Hk Hu c v t Hd Hc).
      * apply (HY k u Hk Hu c v t Hd Hc).
    + apply (D_div (fun s => sum_dims outs (D (c s) p) k) (fun s => sum_dims outs (Y (c s)) k)); [lra| |].
      * apply (sumdims_g (fun th => D th p) (fun th q => H th p q) k (fun u Hu => HD p k u Hp Hk Hu) c v t Hd Hc).
      * apply (sumdims_g Y D k (fun u Hu => HY k u Hk Hu) c v t Hd Hc).
  - cbn beta. unfold Rdiv. rewrite <- !Rsum_scal_r, <- !Rsum_scal, <- !Rsum_minus, <- !Rsum_scal_r, <- !Rsum_minus, <- Rsum_scal.
    apply Rsum_ext. intros q _. field. split; lra.
Qed.
End FiniteP.
