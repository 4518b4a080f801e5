(** A successful fit with Newton's method. *)
From Coq Require Import String.
From Verif Require Import Prelude DenseModel AnalyticSpec DenseProofs NDArray NDProofs TensorModel TensorSpec TensorUfunc FuncModel FuncSpec FTModel FTSpec FTRep FTRefine FTBuilt LTModel LTSpec LTLik LTDer ETModel ETRefine ETSpec ETBuilt ParamModel ParamSpec ParamProofs AssembleModel AssembleSpec OTModel OTSpec OTSim2 OTSim OTCurve OTMain OTThm FitModel FitSpec FitProofs FitPropProofs NTLoop.
From Verif Require AssembleNewton AssembleProofs.
From Coquelicot Require Import Coquelicot.
From Coq Require Import Reals Lra Sorted.
From Verif Require Import NTModel NTSpec NTLike.
Import List ListNotations.
Open Scope R_scope.

Lemma frame_axes q q' : same_frame q q' -> axes q' = axes q.
Proof. intros (_ & S & _). unfold axes. rewrite <- (map_map p_shape (fun s => (s, @nil nat)) q'), <- (map_map p_shape (fun s => (s, @nil nat)) q). now rewrite S. Qed.
Lemma frame_ok q q' : params_ok q -> same_frame q q' -> Forall param_wf q' -> params_ok q'.
Proof.
  intros [P N] (L & S & _) W. split; [|destruct q', q; cbn in *; congruence].
  assert (Sq : Forall (fun s => Forall (fun s => 1 <= s)%nat s) (map p_shape q)) by (apply Forall_map; eapply Forall_impl; [|exact P]; now intros p []).
  rewrite <- S, Forall_map in Sq. rewrite Forall_forall in *. intros p Hp. split; auto.
Qed.
Lemma frame_masks (q q' : list (param R)) : same_frame q q' -> free_coords q' = free_coords q.
Proof. intros (L & _ & S & _). now apply AssembleNewton.free_coords_masks. Qed.
Lemma frame_nfree (q q' : list (param R)) : same_frame q q' -> n_free q' = n_free q.
Proof. intros F. now rewrite <- !AssembleNewton.free_coords_length, (frame_masks _ _ F). Qed.

Section thm.
Variables (dat : pst) (D : list pval -> Prop) (m : maxlike) (la : linalg) (d : string -> option tensor) (cons regs : list term) (ss : list pst).
Hypothesis FP : fit_problem ss dat D m d cons regs.
Hypothesis Tot : total d dat <> 0.
Notation E := (fit_of m la).
Notation o := (ml_model m).
Notation pen := (goal m d dat regs).

Section point.
Variable x : list (param R).
Hypothesis PO : params_ok x.
Hypothesis Ax : axes x = ss.
Hypothesis Dx : D (map arr_of x).

Lemma point_g : g_at E d x = Ok (pen x / total d dat).
Proof.
  destruct (problem_object _ _ _ _ _ _ _ FP) as (e & Ee & EN & HN & MO). destruct (fp_dat _ _ _ _ _ _ _ FP) as [Pd Nd].
  pose proof (MO _ (or_introl eq_refl)) as M. rewrite <- Ax in M.
  destruct (objective_ok x PO D _ _ _ _ M dat Dx Pd Nd HN) as [O _]. cbn [m_N] in O. specialize (O Tot).
  unfold g_at. cbn [fit_of model_call FitModel.objective]. unfold OTModel.objective in O. cbn [m_model] in O.
  destruct (t_call (o_f o) (map arr_of x)) as [y|]; [|discriminate O]. cbn [rbind] in *. unfold with_data. rewrite Ee, EN. cbn [rbind]. exact O.
Qed.
Lemma ml_ins : inside D x.
Proof. now apply (fp_open _ _ _ _ _ _ _ FP). Qed.
(** the evaluation made by newton_step *)
Lemma point_step : exists y der hs G H, model_eval E x = Ok (y, der, hs) /\ FitModel.objective E d x y = Ok (pen x / total d dat) /\
  FitModel.flat_grad E d x y der = Ok G /\ FitModel.flat_hess E d x y der hs = Ok H /\ newton_system pen cons x G H.
Proof.
  destruct (problem_object _ _ _ _ _ _ _ FP) as (e & Ee & EN & HN & MO). destruct (fp_dat _ _ _ _ _ _ _ FP) as [Pd Nd].
  pose proof (MO _ (or_intror eq_refl)) as M. set (mo := mkML e (of_eval o) (data d "N") (ml_con m) (ml_reg m)) in *.
  assert (M' : ml_object (axes x) D mo (log_likelihood (ml_class m) d dat (o_f o)) cons regs) by now rewrite Ax.
  assert (A : are_pars ss (map arr_of x)) by (rewrite <- Ax; now apply params_are).
  destruct (problem_eval _ _ _ _ _ _ _ FP _ A Dx) as (y & der & hs & Ev & Ec & Eg & Eh).
  destruct (objective_ok x PO D _ _ _ _ M' dat Dx Pd Nd HN) as [O _]. specialize (O Tot).
  destruct (flat_grad_ok x PO D mo _ cons regs M' ml_ins) as (G & EG & LG & DG & CG).
  destruct (flat_hess_ok x PO D mo _ cons regs M' ml_ins) as (H & EH & LH & RH & DH & SH & ZH).
  exists y, der, hs, G, H. split; [exact Ev|]. cbn [fit_of FitModel.objective FitModel.flat_grad FitModel.flat_hess]. unfold with_data. rewrite Ee, EN. cbn [rbind].
  split; [|split; [|split]].
  - unfold OTModel.objective in O. cbn [mo m_model] in O. rewrite Ec in O. exact O.
  - unfold flat_grad_t in EG. cbn [mo m_model] in EG. rewrite Ec in EG. cbn [rbind] in EG. rewrite Eg in EG. exact EG.
  - unfold flat_hess_t in EH. cbn [mo m_model] in EH. rewrite Ec in EH. cbn [rbind] in EH. rewrite Eg in EH. cbn [rbind] in EH. rewrite Eh in EH. exact EH.
  - rewrite AssembleNewton.free_coords_length in *.
    (* the gradient near x *)
    assert (Near : forall l j b, nth_error (free_coords x) l = Some (j, b) -> locally (entry_of x j b) (fun t =>
      (forall k i a, nth_error (free_coords x) k = Some (i, a) -> nth k (got [] (flat_grad_t mo (set_entry x j b t))) 0 = partial pen i a (set_entry x j b t)) /\
      (forall k c, nth_error cons k = Some c -> nth (n_free x + k) (got [] (flat_grad_t mo (set_entry x j b t))) 0 = con_value c (set_entry x j b t)))).
    { intros l j b El. destruct (coord_in x l j b El) as [Hj Hb]. eapply filter_imp; [|exact (near x D ml_ins j b Hj Hb)]. intros t Dt.
      pose proof (set_ok x PO j b Hj Hb t) as PO'. pose proof (set_axes x j b Hj t) as Ax'. pose proof (set_coords x j b Hj t) as Sc.
      assert (M2 : ml_object (axes (set_entry x j b t)) D mo (log_likelihood (ml_class m) d dat (o_f o)) cons regs) by now rewrite Ax', Ax.
      assert (I2 : inside D (set_entry x j b t)) by (apply (fp_open _ _ _ _ _ _ _ FP); [exact PO'|now rewrite Ax'|exact Dt]).
      destruct (flat_grad_ok _ PO' D mo _ cons regs M2 I2) as (G' & EG' & _ & DG' & CG'). rewrite EG'. cbn [got]. rewrite Sc in *.
      split.
      - intros k i a Ek. symmetry. apply is_derive_unique. exact (DG' k i a Ek).
      - intros k c Ek. pose proof (CG' k c Ek) as Q. rewrite AssembleNewton.free_coords_length in Q. exact Q. }
    constructor.
    + cbn zeta. auto.
    + exact DG.
    + exact CG.
    + intros k l i a j b Ek El. pose proof (nth_error_lt _ _ _ Ek) as Lk. rewrite AssembleNewton.free_coords_length in Lk.
      eapply is_derive_ext_loc; [|apply (DH k l j b); [lia|exact El]]. eapply filter_imp; [|exact (Near l j b El)]. intros t [N1 _]. now apply N1.
    + intros k c l j b Ek El. pose proof (nth_error_lt _ _ _ Ek) as Lk.
      eapply is_derive_ext_loc; [|apply (DH (n_free x + k)%nat l j b); [lia|exact El]]. eapply filter_imp; [|exact (Near l j b El)]. intros t [_ N2]. now apply N2.
    + exact SH.
    + exact ZH.
Qed.
End point.
End thm.
