(** Likelihoods on Tensors: what goes wrong outside the class of LTSpec.v. *)
From Verif Require Import Prelude DenseModel AnalyticSpec DenseProofs NDArray NDProofs TensorModel TensorSpec TensorSpecOps TensorLemmas TensorUfunc FuncModel FuncSpec FTModel FTSpec FTRep FTBuilt FTFindings LTModel LTPlain LTProd LTOuter LTCell LTEst LTLik LTSpec LTDer.
From Coq Require Import Reals Lra.
Import List ListNotations.
Open Scope R_scope.

(** a parameter that the model does not use: the gradient block is one number,
    not an array of the parameter's shape *)
Section dat.
Variable dat : pst.
Hypothesis Hp : posl (flat dat).
Hypothesis Hne : flat dat <> [].
Lemma unused_block delta G : pl 2 dat delta G -> exists w v, py OMul tzero delta = Ok w /\ ssum w = Ok v /\ blk [] [] v (fun _ _ => 0).
Proof.
  intros P. destruct (zval_mul 1 (S4 dat [] []) tzero delta G (S4_pos dat Hp [] [] (Forall_nil _) (Forall_nil _)) (S4_ns dat Hne [] []) zval_tnum P) as (w & Ew & W).
  assert (W' : wv true true true (S4 dat [] []) w (fun _ _ _ _ => 0)) by (destruct W as [A B C X Y N]; constructor; auto).
  destruct (wv_ssum dat Hp [] [] w _ (Forall_nil _) (Forall_nil _) W') as (v & Ev & B). exists w, v. split; [exact Ew|]. split; [exact Ev|]. eapply blk_ext; [|exact B].
  intros x y _ _. unfold tot. rewrite Rsum_zero; [reflexivity|]. intros n _. apply Rsum_zero. reflexivity.
Qed.
Lemma unused_grad_delta delta G der gs i : pl 2 dat delta G -> grad_delta delta der = Ok gs -> nth_error der i = Some tzero ->
  exists t, nth_error gs i = Some (PT t) /\ shp (tv t) = [].
Proof.
  intros P E Hi. revert gs i E Hi. unfold grad_delta. induction der as [|d der IH]; intros gs i E Hi; [destruct i; discriminate|].
  cbn [rmapM] in E. destruct (py OMul d delta) as [w|] eqn:Ew; [|discriminate E]. cbn [rbind] in E. destruct (ssum w) as [v|] eqn:Ev; [|discriminate E]. cbn [rbind] in E.
  match type of E with (rbind ?r _) = _ => destruct r as [rs|] eqn:Er; [|discriminate E] end. cbn [rbind] in E. injection E as <-.
  destruct i as [|i]; [|cbn [nth_error] in *; exact (IH rs i eq_refl Hi)]. cbn [nth_error] in Hi. injection Hi as ->.
  destruct (unused_block delta G P) as (w' & v' & Ew' & Ev' & B). rewrite Ew in Ew'. injection Ew' as <-. rewrite Ev in Ev'. injection Ev' as <-.
  destruct (blk_array _ _ _ _ B) as (t & -> & Sh & _). exists t. split; [reflexivity|exact Sh].
Qed.
Variables (X N : pval).
Hypothesis HX : is_data dat X.
Hypothesis HN : is_data dat N.
Lemma rmapM_nth_inv {A B} (g : A -> res B) : forall l r i a, rmapM g l = Ok r -> nth_error l i = Some a -> exists b, nth_error r i = Some b /\ g a = Ok b.
Proof.
  induction l as [|h l IH]; intros r i a E Hi; [destruct i; discriminate|]. cbn [rmapM] in E. destruct (g h) as [b|] eqn:Eg; [|discriminate E]. cbn [rbind] in E.
  destruct (rmapM g l) as [bs|] eqn:El; [|discriminate E]. cbn [rbind] in E. injection E as <-. destruct i as [|i]; cbn [nth_error] in *.
  - injection Hi as <-. now exists b.
  - now apply (IH bs i a).
Qed.
Lemma unused_class e f ps i y Y v : (exists delta G, pl 2 dat delta G /\ forall der, e_grad e y der = grad_delta delta der) -> t_call f ps = Ok y -> pl 1 dat y Y -> (i < length ps)%nat -> t_grad f ps i = Ok tzero ->
  t_grad (loglik e f) ps i = Ok v -> exists t, v = PT t /\ shp (tv t) = [].
Proof.
  intros (delta & G & P & Ed) Ec Py Hi Hg E. cbn [loglik t_grad] in E. rewrite Ec in E. cbn [rbind] in E. destruct (ders f ps) as [der|] eqn:Eder; [|discriminate E]. cbn [rbind] in E. rewrite Ed in E.
  destruct (grad_delta delta der) as [gs|] eqn:Eg; [|discriminate E]. cbn [rbind] in E. unfold ders in Eder.
  destruct (rmapM_nth_inv _ _ _ i i Eder) as (b & Hb & Eb). { rewrite (nth_error_nth' _ 0%nat) by (rewrite seq_length; exact Hi). now rewrite seq_nth by exact Hi. }
  rewrite Hg in Eb. injection Eb as <-. destruct (unused_grad_delta delta G der gs i P Eg Hb) as (t & Ht & Sh). exists t. split; [|exact Sh].
  unfold rnth in E. rewrite Ht in E. now injection E as <-.
Qed.
Theorem unused_poisson g f ps i y Y v : t_call f ps = Ok y -> pl 1 dat y Y -> (i < length ps)%nat -> t_grad f ps i = Ok tzero ->
  t_grad (loglik (e_Poisson g X N) f) ps i = Ok v -> exists t, v = PT t /\ shp (tv t) = [].
Proof.
  intros Ec Py. pose proof (data_pl dat X HX) as PX. pose proof (data_pl dat N HN) as PN. eapply unused_class; eauto.
  cbn [e_grad e_Poisson]. repeat step Hp Hne. eexists; eexists. split; [eassumption|reflexivity].
Qed.
Lemma unused_returns g f ps y Y d0 gs : t_call f ps = Ok y -> pl 1 dat y Y -> ders f ps = Ok [d0; tzero] -> e_grad (e_Poisson g X N) y [d0] = Ok gs ->
  exists v, t_grad (loglik (e_Poisson g X N) f) ps 1 = Ok v.
Proof.
  intros Ec Py Ed E. pose proof (data_pl dat X HX) as PX. pose proof (data_pl dat N HN) as PN. cbn [loglik t_grad]. rewrite Ec. cbn [rbind]. rewrite Ed. cbn [rbind].
  revert E. cbn [e_grad e_Poisson]. repeat step Hp Hne. unfold grad_delta. cbn [rmapM]. destruct (py OMul d0 w1) as [b|]; [|discriminate]. cbn [rbind]. destruct (ssum b) as [b'|]; [|discriminate]. intros _. cbn [rbind].
  destruct (unused_block w1 _ P1) as (w' & v' & Ew' & Ev' & B). rewrite Ew'. cbn [rbind]. rewrite Ev'. cbn [rbind]. exists v'. reflexivity.
Qed.
Theorem unused_logistic f ps i y Y v : t_call f ps = Ok y -> pl 1 dat y Y -> (i < length ps)%nat -> t_grad f ps i = Ok tzero ->
  t_grad (loglik (e_Logistic X N) f) ps i = Ok v -> exists t, v = PT t /\ shp (tv t) = [].
Proof.
  intros Ec Py. pose proof (data_pl dat X HX) as PX. pose proof (data_pl dat N HN) as PN. eapply unused_class; eauto.
  assert (O : exists u, one_expm y = Ok u /\ pl 1 dat u (fun n d => 1 + exp (- Y n d))).
  { unfold one_expm. do 2 step Hp Hne. destruct (pl_cadd dat OAdd _ _ _ 1 (or_introl eq_refl) P0) as (w' & E' & P'). exists w'. split; [exact E'|exact P']. }
  cbn [e_grad e_Logistic]. destruct O as (u & Eu & Pu). rewrite Eu. cbn [rbind]. repeat step Hp Hne. eexists; eexists. split; [eassumption|reflexivity].
Qed.
End dat.
