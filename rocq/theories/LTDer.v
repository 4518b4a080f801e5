(** The derivatives of the summands of the log-likelihoods, and the theorems
    about the likelihood classes on Tensors. *)
From Verif Require Import Prelude DenseModel AnalyticSpec DenseProofs NDArray NDProofs TensorModel TensorSpec TensorSpecOps TensorLemmas TensorBasic TensorBin TensorUfunc FuncModel FuncSpec FTModel FTSpec FTRep FTSum FTBuilt LTModel LTPlain LTCell LTEst LTLik LTSpec.
From Verif Require LikeProofs.
From Coquelicot Require Import Coquelicot.
From Coq Require Import Reals Lra.
Import List ListNotations.
Open Scope R_scope.
#[local] Existing Instance loose.

Section cells.
Variables (X N Z g g' : R).
Lemma poisson_d1 y : is_derive (fun y => X * y - N * exp y - g) y (X - N * exp y).
Proof. eapply is_derive_eq; [apply D_minus; [apply D_minus; [apply D_scal, D_id|apply D_scal, LikeProofs.Dy_exp]|apply D_const]|ring]. Qed.
Lemma poisson_d2 y : is_derive (fun y => X - N * exp y) y (- (N * exp y)).
Proof. eapply is_derive_eq; [apply D_minus; [apply D_const|apply D_scal, LikeProofs.Dy_exp]|ring]. Qed.
Lemma zip_d1 s y : 0 <= s -> is_derive (fun y => X * y + Z * ln s - N * ln (exp (exp y) + s - 1) - g) y (X - N * exp y / (1 + (s - 1) * exp (- exp y))).
Proof.
  intros Hs. eapply is_derive_eq.
  - apply D_minus; [apply D_minus; [apply D_plus; [apply D_scal, D_id|apply D_const]|]|apply D_const].
    apply D_scal. apply (D_ln (fun y => exp (exp y) + s - 1)); [apply LikeProofs.zip_den_pos; auto|].
    apply D_minus; [|apply D_const]. apply D_plus; [|apply D_const].
    apply (D_exp exp). apply LikeProofs.Dy_exp.
  - transitivity (X - N * exp y * (/ (exp (exp y) + s - 1) * exp (exp y))); [ring|].
    rewrite LikeProofs.zip_rel by auto. unfold Rdiv. ring.
Qed.
Lemma zip_d2 s y : 0 <= s -> is_derive (fun y => X - N * exp y / (1 + (s - 1) * exp (- exp y))) y
  (let t := exp y / (1 + (s - 1) * exp (- exp y)) in - (N * t * (1 + t * (s - 1) * exp (- exp y)))).
Proof.
  intros Hs. cbv zeta. pose proof (LikeProofs.zip_den2_pos s y Hs). eapply is_derive_eq.
  - apply D_minus; [apply D_const|].
    apply (D_div (fun y => N * exp y) (fun y => 1 + (s - 1) * exp (- exp y))); [lra|apply D_scal, LikeProofs.Dy_exp|].
    apply D_plus; [apply D_const|]. apply D_scal. apply (D_exp (fun y => - exp y)). apply D_opp, LikeProofs.Dy_exp.
  - cbn beta. field. lra.
Qed.
Lemma logistic_d1 y : is_derive (fun y => - (N * ln (1 + exp (- y)) + (N - X) * y)) y (X - N / (1 + exp (- y))).
Proof.
  pose proof (LikeProofs.log_den_pos y). eapply is_derive_eq.
  - apply D_opp, D_plus; [|apply D_scal, D_id]. apply D_scal.
    apply (D_ln (fun y => 1 + exp (- y))); [auto|]. apply D_plus; [apply D_const|].
    apply (D_exp (fun y => - y)), D_opp, D_id.
  - cbn beta. field. lra.
Qed.
Lemma logistic_d2 y : is_derive (fun y => X - N / (1 + exp (- y))) y (let p := 1 / (1 + exp (- y)) in - (p * (1 - p) * N)).
Proof.
  cbv zeta. pose proof (LikeProofs.log_den_pos y). eapply is_derive_eq.
  - apply D_minus; [apply D_const|].
    apply (D_div (fun y => N) (fun y => 1 + exp (- y))); [lra|apply D_const|].
    apply D_plus; [apply D_const|]. apply (D_exp (fun y => - y)), D_opp, D_id.
  - cbn beta. field. lra.
Qed.
Lemma negbin_d1 r y : 0 < r -> is_derive (fun y => g + X * y - (X + r * N) * ln (r + exp y)) y (X - (X + r * N) * exp y / (exp y + r)).
Proof.
  intros Hr. pose proof (LikeProofs.nb_den_pos r y Hr). eapply is_derive_eq.
  - apply D_minus; [apply D_plus; [apply D_const|apply D_scal, D_id]|]. apply D_scal.
    apply (D_ln (fun y => r + exp y)); [lra|]. apply D_plus; [apply D_const|apply LikeProofs.Dy_exp].
  - cbn beta. field. lra.
Qed.
Lemma negbin_d2 r y : 0 < r -> is_derive (fun y => X - (X + r * N) * exp y / (exp y + r)) y (let s := exp y / (exp y + r) in (X + r * N) * s * s - (X + r * N) * s).
Proof.
  intros Hr. cbv zeta. pose proof (LikeProofs.nb_den_pos r y Hr). eapply is_derive_eq.
  - apply D_minus; [apply D_const|].
    apply (D_div (fun y => (X + r * N) * exp y) (fun y => exp y + r)); [lra|apply D_scal, LikeProofs.Dy_exp|].
    apply D_plus; [apply LikeProofs.Dy_exp|apply D_const].
  - cbn beta. field. lra.
Qed.
Lemma normfinite_d1 y : 0 < y -> is_derive (fun y => N * ln y) y (N / y).
Proof. intros H. eapply is_derive_eq; [apply D_scal; apply (D_ln (fun y => y)); [auto|apply D_id]|]. field. lra. Qed.
Lemma normfinite_d2 y : 0 < y -> is_derive (fun y => N / y) y (- (N / y ^ 2)).
Proof. intros H. eapply is_derive_eq; [apply (D_div (fun y => N) (fun y => y)); [lra|apply D_const|apply D_id]|]. field. lra. Qed.
End cells.


Lemma data_pl dat X : is_data dat X -> pl 2 dat X (cell X).
Proof.
  intros (t & -> & (Hx & Hy & Hn & Hd) & W). exists t. split; [reflexivity|].
  split; [exact (conj W (conj Hx Hy))|]. split; [split; assumption|]. intros n d _ _. reflexivity.
Qed.
Lemma tc_domain ss out (D D' : list pval -> Prop) f : (forall ps, D' ps -> D ps) -> t_correct ss out D f -> t_correct ss out D' f.
Proof.
  intros H [T G HH Sy]. constructor.
  - intros ps Pp d. apply T; auto.
  - intros c v t Pc L. apply (G c v t Pc). revert L. apply filter_imp. auto.
  - intros c v t Pc L. apply (HH c v t Pc). revert L. apply filter_imp. auto.
  - intros ps i x y n d Pp d0. apply Sy; auto.
Qed.
Lemma blk_block X Y v B : blk X Y v B -> is_block (Ok v) X Y B.
Proof.
  intros (t & -> & W & M1 & M2 & Sh & V). exists t. split; [reflexivity|].
  assert (E1 : sX t = X) by (pose proof (f_equal SX Sh) as E; cbn in E; rewrite M1 in E; now destruct (sX t)).
  assert (E2 : sY t = Y) by (pose proof (f_equal SY Sh) as E; cbn in E; rewrite M2 in E; now destruct (sY t)).
  pose proof (f_equal SN Sh) as E3. pose proof (f_equal SD Sh) as E4. cbn in E3, E4. pose proof (wf_groups t W) as G.
  split; [rewrite <- E1, <- E2, (g_x _ _ _ _ _ G), (g_y _ _ _ _ _ G); repeat f_equal; [rewrite <- (g_n _ _ _ _ _ G), E3; reflexivity|rewrite <- (g_d _ _ _ _ _ G), E4; reflexivity]|].
  split; [exact M1|]. split; [exact M2|].
  split; [rewrite (g_shp _ _ _ _ _ G), E1, E2, E3, E4, !app_nil_r; reflexivity|].
  intros x y Hx Hy. rewrite <- (V x y Hx Hy). unfold den. cbn [at_]. rewrite M1, M2. cbn. rewrite !app_nil_r. destruct x, y; cbn; ring.
Qed.
Lemma block_ext v X Y B B' : (forall x y, In x (indices X) -> In y (indices Y) -> B x y = B' x y) -> is_block v X Y B -> is_block v X Y B'.
Proof. intros H (t & E & A & M1 & M2 & Sh & V). exists t. repeat (split; [assumption|]). intros x y Hx Hy. rewrite V, H; auto. Qed.
Lemma blk_is r v X Y B : r = Ok v -> blk X Y v B -> is_block r X Y (fun x y => at_res r x y [] []).
Proof.
  intros -> Bk. eapply block_ext; [|exact (blk_block _ _ _ _ Bk)]. intros x y Hx Hy. unfold at_res, res0. symmetry. exact (blk_get _ _ _ _ x y [] [] Bk Hx Hy).
Qed.
Lemma blk_array X Y v B : blk X Y v B -> exists t, v = PT t /\ shp (tv t) = X ++ Y /\ forall x y, In x (indices X) -> In y (indices Y) -> el (tv t) (x ++ y) = B x y.
Proof. intros Bk. destruct (blk_block _ _ _ _ Bk) as (t & E & _ & _ & _ & Sh & V). injection E as ->. exists t. auto. Qed.
(** as [model_for], for any [f] that computes what a dense function does *)
Record dense_model (ss : list pst) (dat : pst) (D : list pval -> Prop) (f : tfun) : Prop := mkDM {
  dm_built : exists out mf dep, @densely loose ss out D mf dep false f /\
    (forall i, (i < length ss)%nat -> dep i = true) /\
    ax_le (fst out) (fst dat) /\ ax_le (snd out) (snd dat) /\
    (forall k, In k mf -> nth k (fst out) 1%nat = nth k (fst dat) 1%nat);
  dm_params : Forall (fun s => posl (flat s)) ss;
  dm_data : posl (flat dat) /\ flat dat <> [] }.
Lemma model_dense ss dat D f : model_for ss dat D f -> dense_model ss dat D f.
Proof. intros [(out & mf & dep & T & H) P1 P2]. constructor; auto. exists out, mf, dep. split; [now apply tbuilt_dense|exact H]. Qed.
Lemma right_cells ss dat D f P e ell dl d2 : dense_model ss dat D f -> cell_est dat P e ell dl d2 ->
  (forall n d y, P y -> is_derive (ell n d) y (dl n d y)) -> (forall n d y, P y -> is_derive (dl n d) y (d2 n d y)) ->
  likelihood_right ss dat (fun ps => D ps /\ forall n d, In n (indices (fst dat)) -> In d (indices (snd dat)) -> P (fitted f ps n d)) e f ell.
Proof.
  intros [(out & mf & dep & T & Dep & A1 & A2 & Mf) Pss [Hp Hne]] CE E1 E2. pose proof (densely_obs _ _ _ _ _ _ dat T Pss Dep Hne A1 A2 (ax_le1 _ _ A2) Mf) as OM.
  constructor.
  - intros ps Pp d. destruct (lik_call ss dat D f OM P e ell dl d2 CE ps Pp d) as (v & Ev & B). rewrite Ev. exact (blk_block _ _ _ _ B).
  - intros ps i Pp d Hi. destruct (lik_grad ss dat D f OM P e ell dl d2 CE ps i Pp d Hi) as (v & Ev & B).
    eapply block_ext; [|exact (blk_is _ _ _ _ _ Ev B)]. intros x y Hx [<-|[]]. reflexivity.
  - intros ps i j Pp d Hi Hj. destruct (lik_hess ss dat D f OM P e ell dl d2 CE ps i j Pp d Hi Hj) as (v & Ev & B). exact (blk_is _ _ _ _ _ Ev B).
  - exact (lik_correct ss dat D f OM P e ell dl d2 CE E1 E2).
Qed.
Lemma lr_domain ss dat (D D' : list pval -> Prop) e f ell : (forall ps, D' ps -> D ps) -> likelihood_right ss dat D e f ell -> likelihood_right ss dat D' e f ell.
Proof.
  intros H [A B C T]. constructor.
  - intros ps Pp d. apply A; auto.
  - intros ps i Pp d Hi. apply B; auto.
  - intros ps i j Pp d Hi. apply C; auto.
  - eapply tc_domain; eauto.
Qed.
Section classes.
Variables (ss : list pst) (dat : pst) (D : list pval -> Prop) (f : tfun).
Hypothesis M : dense_model ss dat D f.
Variables (X N Z : pval) (gammaln : R -> R).
Hypothesis HX : is_data dat X.
Hypothesis HN : is_data dat N.
Hypothesis HZ : is_data dat Z.
Let Hp : posl (flat dat) := proj1 (dm_data _ _ _ _ M).
Let Hne : flat dat <> [] := proj2 (dm_data _ _ _ _ M).
Theorem poisson_right : likelihood_right ss dat D (e_Poisson gammaln X N) f (fun n d y => cell X n d * y - cell N n d * exp y - gammaln (cell X n d + 1)).
Proof.
  eapply lr_domain; [|eapply right_cells; [exact M|apply poisson_cell; try eassumption; try (apply data_pl; eassumption)| |]].
  - intros ps d. split; [exact d|]. intros; exact I.
  - intros n d y _. apply poisson_d1.
  - intros n d y _. apply poisson_d2.
Qed.
Theorem zip_right s : 0 < s -> likelihood_right ss dat D (e_ZIP gammaln s X N Z) f
  (fun n d y => cell X n d * y + cell Z n d * ln s - cell N n d * ln (exp (exp y) + s - 1) - gammaln (cell X n d + 1)).
Proof.
  intros Hs. eapply lr_domain; [|eapply right_cells; [exact M|apply zip_cell; try eassumption; try (apply data_pl; eassumption)| |]].
  - intros ps d. split; [exact d|]. intros; exact I.
  - intros n d y _. apply zip_d1. lra.
  - intros n d y _. apply zip_d2. lra.
Qed.
Theorem logistic_right : likelihood_right ss dat D (e_Logistic X N) f (fun n d y => - (cell N n d * ln (1 + exp (- y)) + (cell N n d - cell X n d) * y)).
Proof.
  eapply lr_domain; [|eapply right_cells; [exact M|apply logistic_cell; try eassumption; try (apply data_pl; eassumption)| |]].
  - intros ps d. split; [exact d|]. intros; exact I.
  - intros n d y _. apply logistic_d1.
  - intros n d y _. apply logistic_d2.
Qed.
Theorem negbin_right r : 0 < r -> likelihood_right ss dat D (e_NegBin gammaln r X N) f
  (fun n d y => gammaln (cell X n d + r) - gammaln (cell X n d + 1) + r * ln r - gammaln r + cell X n d * y - (cell X n d + r * cell N n d) * ln (r + exp y)).
Proof.
  intros Hr. eapply lr_domain; [|eapply right_cells; [exact M|apply negbin_cell; try eassumption; try (apply data_pl; eassumption)| |]].
  - intros ps d. split; [exact d|]. intros; exact I.
  - intros n d y _. now apply negbin_d1.
  - intros n d y _. now apply negbin_d2.
Qed.
Theorem normfinite_right : likelihood_right ss dat (fun ps => D ps /\ forall n d, In n (indices (fst dat)) -> In d (indices (snd dat)) -> 0 < fitted f ps n d)
  (e_NormFinite N) f (fun n d y => cell N n d * ln y).
Proof.
  eapply right_cells; [exact M|apply normfinite_cell; try eassumption; try (apply data_pl; eassumption)| |].
  - intros n d y. apply normfinite_d1.
  - intros n d y. apply normfinite_d2.
Qed.
End classes.
