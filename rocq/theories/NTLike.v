(** The log-likelihood with the model's methods and with its eval method. *)
From Coq Require Import String.
From Verif Require Import Prelude DenseModel AnalyticSpec DenseProofs NDArray NDProofs TensorModel TensorSpec TensorUfunc FuncModel FuncSpec FTModel FTSpec FTRep FTRefine FTBuilt LTModel LTSpec LTLik LTDer LTFinite LTFinDer ETModel ETRefine ETSpec ETBuilt ParamModel ParamSpec AssembleModel AssembleSpec OTModel OTSpec FitModel FitSpec.
From Verif Require FuncSum.
From Coquelicot Require Import Coquelicot.
From Coq Require Import Reals Lra Sorted.
From Verif Require Import NTModel NTSpec.
Import List ListNotations.
Open Scope R_scope.

Lemma likelihood_on ss (D D' : list pval -> Prop) e f like like' : (forall ps, are_pars ss ps -> D' ps -> D ps) -> (forall ps, are_pars ss ps -> D' ps -> like ps = like' ps) ->
  likelihood_is ss D e f like -> likelihood_is ss D' e f like'.
Proof.
  intros H V [L1 L2 L3 [T1 T2 T3 T4]]. constructor; auto.
  - intros ps A d. eapply block_ext; [|apply L1; auto]. intros x y _ _. cbn. now apply V.
  - constructor.
    + intros ps A Dp. apply T1; auto.
    + intros c v t C L. apply T2; auto. eapply filter_imp; [|exact L]. intros s. apply H, C.
    + intros c v t C L. apply T3; auto. eapply filter_imp; [|exact L]. intros s. apply H, C.
    + intros ps i x y n d A Dp. apply T4; auto.
Qed.

Section fit.
Context {ex : exdims}.
(** a densely refined function's value does not depend on the size-1 axes *)
Lemma dense_clamp ss out D mf dep f ps n d : densely ss out D mf dep false f -> are_pars ss ps -> D ps ->
  fitted f ps n d = fitted f ps (clamp (fst out) n) (clamp (snd out) d).
Proof.
  intros (sf & C & _ & Rf) Pp d0. destruct (rf_call _ _ _ _ _ _ _ _ Rf ps _ (are_pars_prms _ _ Pp) (are_pars_Dd _ _ _ Pp d0)) as (v & Ev & [(? & _)|(t & -> & Pt)]); [discriminate|].
  destruct Pt as (W & X & Y & Hn & Hd & _). unfold fitted, at_res. rewrite Ev. cbn [res0 vden]. apply get_clamp_le1; [rewrite Hn|rewrite Hd]; apply le1_same.
Qed.
Lemma fitted_eval ss out D mf dep o dat ps n d : ebuilt ss out D mf dep false o -> ax_le (fst out) (fst dat) -> ax_le (snd out) (snd dat) ->
  are_pars ss ps -> D ps -> In n (indices (fst dat)) -> In d (indices (snd dat)) -> fitted (of_eval o) ps n d = fitted (o_f o) ps n d.
Proof.
  intros T A1 A2 Pp d0 Hn Hd. rewrite (dense_clamp _ _ _ _ _ _ ps n d (ebuilt_of_eval _ _ _ _ _ _ _ T) Pp d0), (dense_clamp _ _ _ _ _ _ ps n d (tbuilt_dense _ _ _ _ _ _ _ (ebuilt_tbuilt _ _ _ _ _ _ _ T)) Pp d0).
  destruct (ebuilt_agrees _ _ _ _ _ _ _ ps T Pp d0) as (v & gs & hs & v' & E & E' & V & _).
  unfold fitted, at_res. cbn [of_eval t_call]. rewrite E, E'. cbn [rbind res0]. apply V; [apply (FuncSum.in_axle _ (fst dat))|apply (FuncSum.in_axle _ (snd dat))]; assumption.
Qed.
End fit.

Lemma em_dense ss dat D o : emodel_for ss dat D o -> dense_model ss dat D (o_f o) /\ dense_model ss dat D (of_eval o).
Proof.
  intros [(out & mf & dep & T & H) P1 P2]. split; constructor; auto; exists out, mf, dep; (split; [|exact H]).
  - apply tbuilt_dense. now apply ebuilt_tbuilt.
  - now apply ebuilt_of_eval.
Qed.
Lemma fem_dense ss dat D o : full_emodel_for ss dat D o -> full_dense_model ss dat D (o_f o) /\ full_dense_model ss dat D (of_eval o).
Proof.
  intros [(out & mf & dep & T & H) P1 P2]. split; constructor; auto; exists out, mf, dep; (split; [|exact H]).
  - apply tbuilt_dense. now apply ebuilt_tbuilt.
  - now apply ebuilt_of_eval.
Qed.
Lemma em_fitted ss dat D o ps n d : emodel_for ss dat D o -> are_pars ss ps -> D ps -> In n (indices (fst dat)) -> In d (indices (snd dat)) -> fitted (of_eval o) ps n d = fitted (o_f o) ps n d.
Proof. intros [(out & mf & dep & T & _ & A1 & A2 & _) _ _] Pp d0. now apply (@fitted_eval loose _ _ _ _ _ _ _ _ _ _ T). Qed.
Lemma ax_le_refl' l : posl l -> ax_le l l.
Proof. induction 1; constructor; auto. Qed.
Lemma fem_fitted ss dat D o ps n d : full_emodel_for ss dat D o -> are_pars ss ps -> D ps -> In n (indices (fst dat)) -> In d (indices (snd dat)) -> fitted (of_eval o) ps n d = fitted (o_f o) ps n d.
Proof.
  intros [(out & mf & dep & T & _ & A1 & A2 & _) _ [Pd _]] Pp d0. apply (@fitted_eval full_dims _ _ _ _ _ _ dat _ _ _ T); auto. rewrite A2. apply ax_le_refl'. apply Forall_app in Pd. apply Pd.
Qed.

Lemma over_ext dat g h : (forall n k, In n (indices (fst dat)) -> In k (indices (snd dat)) -> g n k = h n k) -> over dat g = over dat h.
Proof. intros H. unfold over. apply Rsum_ext. intros n Hn. apply Rsum_ext. intros k Hk. now apply H. Qed.

Lemma class_model ss dat D c o : class_ok ss dat D c o -> emodel_for ss dat D o \/ full_emodel_for ss dat D o.
Proof. destruct c; cbn; intuition. Qed.
Section obj.
Variables (ss : list pst) (dat : pst) (D : list pval -> Prop) (m : maxlike) (d : string -> option tensor) (cons regs : list term).
Hypothesis FP : fit_problem ss dat D m d cons regs.
Notation o := (ml_model m).
Notation like := (log_likelihood (ml_class m) d dat (o_f o)).

Lemma data_ok k : In k (data_names (ml_class m)) -> attr d k = Ok (data d k) /\ is_data dat (data d k).
Proof. intros H. destruct (fp_data _ _ _ _ _ _ _ FP k H) as (t & E & Hd). unfold attr, data. rewrite E. auto. Qed.
Lemma fp_dat : posl (flat dat) /\ flat dat <> [].
Proof.
  destruct (class_model _ _ _ _ _ (fp_class _ _ _ _ _ _ _ FP)) as [C|C]; [exact (em_data _ _ _ _ C)|].
  destruct (fem_data _ _ _ _ C) as [P N]. split; [exact P|]. unfold flat. intros E. apply app_eq_nil in E. now apply N.
Qed.
Lemma same_like (f : tfun) : (forall ps n k, are_pars ss ps -> D ps -> In n (indices (fst dat)) -> In k (indices (snd dat)) -> fitted f ps n k = fitted (o_f o) ps n k) ->
  forall ps, are_pars ss ps -> D ps -> log_likelihood (ml_class m) d dat f ps = like ps.
Proof.
  intros H ps A Dp. unfold log_likelihood. destruct (ml_class m); apply over_ext; intros n k Hn Hk; rewrite (H ps n k A Dp Hn Hk); try reflexivity.
  f_equal. f_equal. f_equal. unfold fitted_total. apply Rsum_ext. intros u Hu. now apply H.
Qed.
(** whichever of the two sets of methods is used, the likelihood is the same function *)
Lemma problem_like : exists e, est_of (ml_class m) d = Ok e /\ forall f, f = o_f o \/ f = of_eval o -> likelihood_is ss D e f like.
Proof.
  pose proof (fp_class _ _ _ _ _ _ _ FP) as C. pose proof data_ok as Da. pose proof same_like as SL.
  assert (Fe : forall f, f = o_f o \/ f = of_eval o -> forall ps n k, are_pars ss ps -> D ps -> In n (indices (fst dat)) -> In k (indices (snd dat)) -> fitted f ps n k = fitted (o_f o) ps n k).
  { intros f [->| ->] ps n k A Dp Hn Hk; [reflexivity|]. destruct (class_model _ _ _ _ _ C) as [C'|C']; [eapply em_fitted; eassumption|eapply fem_fitted; eassumption]. }
  destruct (ml_class m) as [g|g s| |dim|dim|g r] eqn:Ec; cbn [class_ok] in C; cbn [data_names] in Da; unfold est_of; rewrite (proj1 (Da "N"%string ltac:(cbn; auto))); cbn [rbind];
    try (rewrite (proj1 (Da "X"%string ltac:(cbn; auto))); cbn [rbind]); try (rewrite (proj1 (Da "Z"%string ltac:(cbn; auto))); cbn [rbind]).
  all: eexists; (split; [reflexivity|]); intros f Hf.
  all: pose proof (proj2 (Da "N"%string ltac:(cbn; auto))) as HN; try pose proof (proj2 (Da "X"%string ltac:(cbn; auto))) as HX; try pose proof (proj2 (Da "Z"%string ltac:(cbn; auto))) as HZ.
  - assert (M : dense_model ss dat D f) by (destruct (em_dense _ _ _ _ C); destruct Hf as [->| ->]; assumption).
    eapply (likelihood_on ss D); [auto| |exact (poisson_right ss dat D f M _ _ g HX HN)]. intros ps A Dp. rewrite <- (SL f (Fe f Hf) ps A Dp). reflexivity.
  - destruct C as [C Hs]. assert (M : dense_model ss dat D f) by (destruct (em_dense _ _ _ _ C); destruct Hf as [->| ->]; assumption).
    eapply (likelihood_on ss D); [auto| |exact (zip_right ss dat D f M _ _ _ g HX HN HZ s Hs)]. intros ps A Dp. rewrite <- (SL f (Fe f Hf) ps A Dp). reflexivity.
  - assert (M : dense_model ss dat D f) by (destruct (em_dense _ _ _ _ C); destruct Hf as [->| ->]; assumption).
    eapply (likelihood_on ss D); [auto| |exact (logistic_right ss dat D f M _ _ HX HN)]. intros ps A Dp. rewrite <- (SL f (Fe f Hf) ps A Dp). reflexivity.
  - destruct C as [C Hp]. assert (M : full_dense_model ss dat D f) by (destruct (fem_dense _ _ _ _ C); destruct Hf as [->| ->]; assumption).
    eapply likelihood_on; [| |exact (finite_right ss dat D f _ M HN)].
    + intros ps A Dp. split; [exact Dp|]. intros n k Hn Hk. rewrite (Fe f Hf ps n k A Dp Hn Hk). now apply Hp.
    + intros ps A Dp. rewrite <- (SL f (Fe f Hf) ps A Dp). reflexivity.
  - destruct C as [C Hp]. assert (M : dense_model ss dat D f) by (destruct (em_dense _ _ _ _ C); destruct Hf as [->| ->]; assumption).
    eapply likelihood_on; [| |exact (normfinite_right ss dat D f M _ HN)].
    + intros ps A Dp. split; [exact Dp|]. intros n k Hn Hk. rewrite (Fe f Hf ps n k A Dp Hn Hk). now apply Hp.
    + intros ps A Dp. rewrite <- (SL f (Fe f Hf) ps A Dp). reflexivity.
  - destruct C as [C Hs]. assert (M : dense_model ss dat D f) by (destruct (em_dense _ _ _ _ C); destruct Hf as [->| ->]; assumption).
    eapply (likelihood_on ss D); [auto| |exact (negbin_right ss dat D f M _ _ g HX HN r Hs)]. intros ps A Dp. rewrite <- (SL f (Fe f Hf) ps A Dp). reflexivity.
Qed.
Lemma problem_object : exists e, est_of (ml_class m) d = Ok e /\ attr d "N" = Ok (data d "N") /\ is_data dat (data d "N") /\
  forall f, f = o_f o \/ f = of_eval o -> ml_object ss D (mkML e f (data d "N") (ml_con m) (ml_reg m)) like cons regs.
Proof.
  destruct problem_like as (e & Ee & L). destruct (data_ok "N"%string) as [E N]; [destruct (ml_class m); cbn; auto|].
  exists e. do 3 (split; [assumption|]). intros f Hf. destruct FP. constructor; auto.
Qed.
(** eval returns lists of the right lengths *)
Lemma problem_eval ps : are_pars ss ps -> D ps -> exists y gs hs, o_eval o ps = Ok (y, gs, hs) /\
  t_call (of_eval o) ps = Ok y /\ ders (of_eval o) ps = Ok gs /\ hesses (of_eval o) ps = Ok hs.
Proof.
  intros A Dp. assert (Ag : exists out, eval_agrees ss out o ps).
  { destruct (class_model _ _ _ _ _ (fp_class _ _ _ _ _ _ _ FP)) as [C|C]; destruct C as [(out & mf & dep & T & _) _ _]; exists out; eapply ebuilt_agrees; eauto. }
  destruct Ag as (out & y & gs & hs & v' & E & _ & _ & Lg & _ & Lh & Lr & _). exists y, gs, hs. split; [exact E|].
  pose proof (DenseProofs.Forall2_length' _ _ _ A) as La.
  split; [cbn; now rewrite E|]. split.
  - unfold ders. destruct (rmapM_seq (t_grad (of_eval o) ps) (fun i b => b = nth i gs (PNum 0)) (PNum 0) (length ps)) as (bs & Eb & Lb & Vb).
    + intros i Hi. exists (nth i gs (PNum 0)). split; [|reflexivity]. cbn. rewrite E. cbn [rbind]. apply rnth_nth. lia.
    + rewrite Eb. f_equal. apply nth_ext with (PNum 0) (PNum 0); [lia|]. intros i Hi. apply Vb. lia.
  - unfold hesses. destruct (rmapM_seq (fun i => rmapM (t_hess (of_eval o) ps i) (seq 0 (Datatypes.S i))) (fun i b => b = nth i hs []) [] (length ps)) as (bs & Eb & Lb & Vb).
    + intros i Hi. exists (nth i hs []). split; [|reflexivity].
      destruct (rmapM_seq (t_hess (of_eval o) ps i) (fun j b => b = nth j (nth i hs []) (PNum 0)) (PNum 0) (Datatypes.S i)) as (cs & Ec & Lc & Vc).
      * intros j Hj. exists (nth j (nth i hs []) (PNum 0)). split; [|reflexivity]. cbn. rewrite E. cbn [rbind]. apply rnth2_nth; [lia|]. rewrite Lr; lia.
      * rewrite Ec. f_equal. apply nth_ext with (PNum 0) (PNum 0); [rewrite Lr; lia|]. intros j Hj. apply Vc. lia.
    + rewrite Eb. f_equal. apply nth_ext with [] []; [lia|]. intros i Hi. apply Vb. lia.
Qed.
End obj.
