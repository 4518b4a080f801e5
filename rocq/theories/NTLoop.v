(** Newton's loop: what a successful fit went through, in terms of the points at
    which steps were computed (events EvStep of the trace). *)
From Coq Require Import String.
From Verif Require Import Prelude ParamModel ParamSpec ParamProofs FitModel FitSpec FitProofs FitPropProofs.
From Coq Require Import Lia.
Import List ListNotations.

Ltac nstep R E1 E2 E3 :=
  match type of R with context [newton_step ?xE ?xd ?xps] =>
    destruct (newton_step xE xd xps) as [[[[step g0] grad] hess]|err] eqn:E1 end;
  [match type of R with context [inner ?xE ?xv ?xd ?xsp ?xfl ?xst ?xg ?xn ?xm] =>
    destruct (inner xE xv xd xsp xfl xst xg xn xm) as [tr1 [nf nps g | | e1]] eqn:E2 end;
   [match type of R with context [criterion ?xE ?xa ?xb ?xc] =>
      destruct (criterion xE xa xb xc) as [[]|e2] eqn:E3 end| | ] | ].

Section Loop.
Context {F M Y D H T : Type}.
Variable E : estimator F M Y D H T.

(** at point x the objective computed by newton_step is that of a call of g *)
Definition consistent_at (d : string -> option T) (x : list (param F)) : Prop :=
  forall step g0 grad hess, newton_step E d x = Ok (step, g0, grad, hess) -> g_at E d x = Ok g0.

Lemma newton_start v tol s k flat ps tr s' b : newton_loop E v tol s k flat ps = (tr, s', Ok b) -> In (EvStep ps) tr.
Proof.
  destruct k as [|k]; cbn [newton_loop]; [discriminate|]. intros R.
  nstep R E1 E2 E3; try discriminate.
  - injection R as <- <- <-. now left.
  - destruct (newton_loop E v tol s k nf nps) as [[tr2 s2] out]. injection R as <- <- ->. now left.
Qed.
Lemma newton_monotone_on v tol s k : ge_transitive E ->
  forall flat ps tr s' b, newton_loop E v tol s k flat ps = (tr, s', Ok b) -> (forall x, In (EvStep x) tr -> consistent_at (s_data s) x) ->
  exists g0 g1, g_at E (s_data s) ps = Ok g0 /\ g_at E (s_data s) (s_params s') = Ok g1 /\ f_ge E g1 g0 = true.
Proof.
  intros Tr. induction k as [|k IH]; intros flat ps tr s' b R C; [discriminate R|].
  assert (C0 : consistent_at (s_data s) ps) by (apply C; eapply newton_start; eauto).
  cbn [newton_loop] in R. nstep R E1 E2 E3; try discriminate.
  - injection R as <- <- <-. destruct (inner_accepted _ _ _ _ _ _ _ _ _ _ _ _ _ E2) as (m & Hm & A & B & G & GE).
    exists g0, g. split; [eapply C0; eauto|]. cbn. auto.
  - destruct (newton_loop E v tol s k nf nps) as [[tr2 s2] out] eqn:E4. injection R as <- <- ->.
    destruct (inner_accepted _ _ _ _ _ _ _ _ _ _ _ _ _ E2) as (m & Hm & A & B & G & GE).
    destruct (IH _ _ _ _ _ E4) as (ga & gb & Ga & Gb & GE'). { intros x Hx. apply C. right. apply in_or_app. now right. }
    rewrite G in Ga. injection Ga as <-.
    exists g0, gb. split; [eapply C0; eauto|]. split; [exact Gb|]. eapply Tr; eauto.
Qed.
(** the last iteration *)
Lemma newton_last v tol s k : forall flat ps tr s' b, newton_loop E v tol s k flat ps = (tr, s', Ok b) -> b = true /\
  exists flat_x x step g0 grad hess nf m g, In (EvStep x) tr /\
    ((flat_x = flat /\ x = ps) \/ reshape_params (s_params s) flat_x = Ok x) /\
    newton_step E (s_data s) x = Ok (step, g0, grad, hess) /\ In m (multipliers E) /\
    v_op (f_sub E) flat_x (map (f_mul E m) step) = Ok nf /\ reshape_params (s_params s) nf = Ok (s_params s') /\
    g_at E (s_data s) (s_params s') = Ok g /\ f_ge E g g0 = true /\ criterion E g0 g tol = Ok true /\ s_hess s' = Some hess /\ s_data s' = s_data s.
Proof.
  induction k as [|k IH]; intros flat ps tr s' b R; cbn [newton_loop] in R; [discriminate|].
  nstep R E1 E2 E3; try discriminate.
  - injection R as <- <- <-. split; auto.
    destruct (inner_accepted _ _ _ _ _ _ _ _ _ _ _ _ _ E2) as (m & Hm & A & B & C & G).
    exists flat, ps, step, g0, grad, hess, nf, m, g. cbn. repeat split; auto.
  - destruct (newton_loop E v tol s k nf nps) as [[tr2 s2] out] eqn:E4. injection R as <- <- ->.
    destruct (IH _ _ _ _ _ E4) as [-> L]. split; auto.
    destruct (inner_accepted _ _ _ _ _ _ _ _ _ _ _ _ _ E2) as (m & Hm & A & B & C & G).
    destruct L as (fx & x & st & g1 & gr & he & nf2 & m2 & g2 & Hin & Hx & Rest).
    exists fx, x, st, g1, gr, he, nf2, m2, g2. split; [right; apply in_or_app; now right|]. split; auto.
    destruct Hx as [[-> ->]|Hx]; auto.
Qed.
(** the points visited have the shapes, masks and fixed entries of the start *)
Lemma inner_nosteps v d self flat step g0 n : forall mult tr r x, inner E v d self flat step g0 n mult = (tr, r) -> ~ In (EvStep x) tr.
Proof.
  induction n as [|n IH]; intros mult tr r x R; cbn [inner] in R; [injection R as <- <-; auto|].
  destruct (v_op _ _ _) as [nf|]; [|injection R as <- <-; auto]. destruct (reshape_params _ _) as [ps|]; [|injection R as <- <-; auto].
  destruct (g_at _ _ _) as [g|]; [|injection R as <- <-; intros [Q|[]]; discriminate Q].
  destruct (f_ge E g g0); [injection R as <- <-; intros [Q|[]]; discriminate Q|].
  destruct (inner E v d self flat step g0 n _) as [tr' r'] eqn:E1. injection R as <- <-. intros [Q|Q]; [discriminate Q|].
  apply in_app_or in Q as [Q|Q]; [|eapply IH; eauto]. destruct (1 <? v)%nat; [destruct Q as [Q|[]]; discriminate Q|destruct Q].
Qed.
Lemma newton_visited v tol s k : Forall param_wf (s_params s) -> forall flat ps tr s' out, newton_loop E v tol s k flat ps = (tr, s', out) ->
  same_frame (s_params s) ps -> Forall param_wf ps -> forall x, In (EvStep x) tr -> same_frame (s_params s) x /\ Forall param_wf x.
Proof.
  intros W. induction k as [|k IH]; intros flat ps tr s' out R Sf Wp x Hx; cbn [newton_loop] in R; [injection R as <- <- <-; destruct Hx|].
  assert (NP : In (EvStep x) (if (0 <? v)%nat then [EvPrint] else []) -> False) by (destruct (0 <? v)%nat; [intros [Q|[]]; discriminate Q|intros []]).
  destruct (newton_step E (s_data s) ps) as [[[[step g0] grad] hess]|err] eqn:E1; [|injection R as <- <- <-; destruct Hx as [Q|[]]; injection Q as <-; auto].
  destruct (inner E v (s_data s) (s_params s) flat step g0 5 (f_one E)) as [tr1 r1] eqn:E2.
  pose proof (inner_nosteps _ _ _ _ _ _ _ _ _ _ x E2) as NI.
  assert (H0 : In (EvStep x) (EvStep ps :: (if (0 <? v)%nat then [EvPrint] else []) ++ tr1) -> same_frame (s_params s) x /\ Forall param_wf x).
  { intros [Q|Q]; [injection Q as <-; auto|]. apply in_app_or in Q as [Q|Q]; [destruct (NP Q)|contradiction]. }
  destruct r1 as [nf nps g| |e]; [|injection R as <- <- <-; now apply H0..].
  destruct (criterion E g0 g tol) as [[]|e2]; [injection R as <- <- <-; now apply H0| |injection R as <- <- <-; now apply H0].
  destruct (newton_loop E v tol s k nf nps) as [[tr2 s2] out2] eqn:E4. injection R as <- <- <-.
  change (In (EvStep x) ((EvStep ps :: (if (0 <? v)%nat then [EvPrint] else []) ++ tr1) ++ tr2)) in Hx.
  apply in_app_or in Hx as [Q|Q]; [now apply H0|].
  destruct (inner_accepted _ _ _ _ _ _ _ _ _ _ _ _ _ E2) as (m & Hm & A & B & C & G). destruct (reshape_same_frame _ _ _ W B) as [S1 W1].
  eapply IH; eauto.
Qed.

(** where a point and its flat vector come from *)
Definition flat_of (self : list (param F)) (flat : list F) (x : list (param F)) : Prop :=
  (flat = free_concat self /\ x = self) \/ reshape_params self flat = Ok x.
(** an accepted step from [x] to [x'] *)
Definition moved (d : string -> option T) (self x x' : list (param F)) : Prop :=
  exists mult y der hs g0 grad hess full, In mult (multipliers E) /\ model_eval E x = Ok (y, der, hs) /\ objective E d x y = Ok g0 /\
    flat_grad E d x y der = Ok grad /\ flat_hess E d x y der hs = Ok hess /\ np_solve E hess grad = Ok full /\
    (length full = n_free self + n_constraints E ->
     free_entries x' = map (fun '(a, b) => f_sub E a (f_mul E mult b)) (combine (free_entries x) (firstn (n_free self) full)))%nat.
Lemma move_free self fx x d step g0 gr he mm nf x' full : Forall param_wf self -> (1 <= n_free self)%nat -> flat_of self fx x ->
  newton_step E d x = Ok (step, g0, gr, he) -> v_op (f_sub E) fx (map (f_mul E mm) step) = Ok nf -> reshape_params self nf = Ok x' ->
  np_solve E he gr = Ok full -> (length full = n_free self + n_constraints E)%nat ->
  free_entries x' = map (fun '(a, b) => f_sub E a (f_mul E mm b)) (combine (free_entries x) (firstn (n_free self) full)).
Proof.
  intros Hw Hf Hx NS VO RS Sv Lf.
  apply newton_step_inv in NS as (y & der & hs & full' & i1 & Ev & Ob & Gr & He & Sv' & Ci & Est). rewrite Sv in Sv'. injection Sv' as <-.
  rewrite Lf, cut_index_spec in Ci by auto. injection Ci as <-.
  assert (Lst : length step = n_free self) by (rewrite Est, firstn_length; lia). rewrite <- Est. clear Est.
  assert (Fx : free_entries x = firstn (n_free self) fx /\ n_free self <= length fx).
  { destruct Hx as [[-> ->]|Hx].
    - rewrite free_entries_flat. unfold free_concat.
      pose proof (concat_compressed_length self Hw) as Lc. rewrite <- n_free_total in Lc.
      rewrite <- Lc. split; [|lia]. now rewrite firstn_all.
    - split; [now apply free_of_reshape|]. rewrite n_free_total. now apply reshape_params_inv in Hx. }
  destruct Fx as [Fx Lfx]. rewrite Fx, (free_of_reshape _ _ _ Hw RS).
  set (n := n_free self) in *. clear -VO Lst Lfx Hf. rename step into st.
  unfold v_op in VO. rewrite map_length in VO. destruct (Nat.eqb_spec (length fx) (length st)) as [Ef|Nf].
  - injection VO as <-. rewrite Lst in Ef. rewrite <- Ef at 2. rewrite firstn_all.
    rewrite firstn_all2 by (rewrite map_length, combine_length, map_length; lia).
    clear. revert st. induction fx as [|a fx IH]; intros [|b st]; cbn; auto. f_equal. apply IH.
  - destruct st as [|b [|c st]].
    + cbn in Lst. lia.
    + cbn in *. injection VO as <-. rewrite <- Lst in *. destruct fx as [|a fx]; [cbn in Lfx; lia|].
      reflexivity.
    + cbn [map] in VO. destruct fx as [|a [|]]; try discriminate. cbn in *. lia.
Qed.
Lemma moved_of self fx x d step g0 gr he mm nf x' : Forall param_wf self -> (1 <= n_free self)%nat -> flat_of self fx x ->
  newton_step E d x = Ok (step, g0, gr, he) -> In mm (multipliers E) -> v_op (f_sub E) fx (map (f_mul E mm) step) = Ok nf -> reshape_params self nf = Ok x' ->
  moved d self x x'.
Proof.
  intros Hw Hf Hx NS Hm VO RS. pose proof NS as NS0. apply newton_step_inv in NS as (y & der & hs & full & i1 & Ev & Ob & Gr & He & Sv & Ci & Est).
  exists mm, y, der, hs, g0, gr, he, full. do 6 (split; [assumption|]). intros Lf. eapply move_free; eauto.
Qed.
(** what holds at the start and after an accepted step *)
Lemma newton_path v tol s k (P Q : list (param F) -> Prop) : (forall x, Q x -> P x) -> Forall param_wf (s_params s) -> (1 <= n_free (s_params s))%nat ->
  forall flat ps tr s' b, newton_loop E v tol s k flat ps = (tr, s', Ok b) -> flat_of (s_params s) flat ps -> P ps ->
  (forall x x', (In (EvStep x') tr \/ x' = s_params s') -> In (EvStep x) tr -> moved (s_data s) (s_params s) x x' -> P x -> Q x') -> Q (s_params s').
Proof.
  intros QP Hw Hf. induction k as [|k IH]; intros flat ps tr s' b R Fo P0 St; [discriminate R|].
  pose proof (newton_start _ _ _ _ _ _ _ _ _ R) as In0.
  cbn [newton_loop] in R. nstep R E1 E2 E3; try discriminate.
  - injection R as <- <- <-. destruct (inner_accepted _ _ _ _ _ _ _ _ _ _ _ _ _ E2) as (m & Hm & A & B & G & GE).
    apply (St ps); auto. cbn. eapply moved_of; eauto.
  - destruct (newton_loop E v tol s k nf nps) as [[tr2 s2] out] eqn:E4. injection R as <- <- ->.
    destruct (inner_accepted _ _ _ _ _ _ _ _ _ _ _ _ _ E2) as (m & Hm & A & B & G & GE).
    assert (Sub : forall x, In (EvStep x) tr2 -> In (EvStep x) (EvStep ps :: ((if (0 <? v)%nat then [EvPrint] else []) ++ tr1) ++ tr2)).
    { intros x Hx. right. apply in_or_app. now right. }
    eapply IH; [exact E4|now right| |].
    + apply QP, (St ps); auto; [left; apply Sub; eapply newton_start; eauto|]. eapply moved_of; eauto.
    + intros x x' Hx' Hx. apply St; [destruct Hx'; auto|auto].
Qed.

(** the whole fit *)
Lemma newton_fit tol ms v m kw s tr s' : is_newton m -> Forall param_wf (s_params s) -> (1 <= n_free (s_params s))%nat ->
  ge_transitive E -> fit E tol ms v m kw s = (tr, s', Ok true) ->
  (forall x, In (EvStep x) tr -> same_frame (s_params s) x /\ Forall param_wf x) /\ In (EvStep (s_params s)) tr /\
  same_frame (s_params s) (s_params s') /\ Forall param_wf (s_params s') /\
  ((forall x, In (EvStep x) tr -> consistent_at (s_data s') x) -> 
     exists g0 g1, g_at E (s_data s') (s_params s) = Ok g0 /\ g_at E (s_data s') (s_params s') = Ok g1 /\ f_ge E g1 g0 = true) /\
  (forall P Q : list (param F) -> Prop, (forall x, Q x -> P x) -> P (s_params s) ->
     (forall x x', (In (EvStep x') tr \/ x' = s_params s') -> In (EvStep x) tr -> moved (s_data s') (s_params s) x x' -> P x -> Q x') -> Q (s_params s')) /\
  exists x mult y der hs g0 grad hess full, In (EvStep x) tr /\ model_eval E x = Ok (y, der, hs) /\ objective E (s_data s') x y = Ok g0 /\
    flat_grad E (s_data s') x y der = Ok grad /\ flat_hess E (s_data s') x y der hs = Ok hess /\ np_solve E hess grad = Ok full /\
    s_hess s' = Some hess /\ In mult (multipliers E) /\
    (exists g, g_at E (s_data s') (s_params s') = Ok g /\ f_ge E g g0 = true /\ criterion E g0 g tol = Ok true) /\
    (length full = n_free (s_params s) + n_constraints E ->
     free_entries (s_params s') = map (fun '(a, b) => f_sub E a (f_mul E mult b)) (combine (free_entries x) (firstn (n_free (s_params s)) full)))%nat.
Proof.
  intros Hm Hw Hf Tr R. pose proof (C04_p _ _ _ _ _ _ _ _ _ _ Hw R) as [S' W'].
  apply fit_cases in R as [(e' & L & X & _)|(s1 & r & L & R)]; [discriminate|].
  destruct (load_data_frame _ _ _ _ L) as (P1 & P2 & _); auto.
  destruct R as [(Z & -> & X & _)|(Hne & [(_ & R)|[(N & _)|(N & _)]])]; try contradiction; [discriminate|].
  assert (Hw1 : Forall param_wf (s_params s1)) by now rewrite P1.
  assert (Dt : s_data s' = s_data s1) by (eapply loop_data_newton; eauto).
  pose proof (newton_visited _ _ _ _ Hw1 _ _ _ _ _ R (same_frame_refl _) Hw1) as V.
  pose proof (newton_start _ _ _ _ _ _ _ _ _ R) as St.
  assert (Hf1 : (1 <= n_free (s_params s1))%nat) by now rewrite P1.
  pose proof (fun P Q QP P0 => newton_path _ _ _ _ P Q QP Hw1 Hf1 _ _ _ _ _ R (or_introl (conj eq_refl eq_refl)) P0) as Pa.
  pose proof (newton_monotone_on _ _ _ _ Tr _ _ _ _ _ R) as Mo.
  apply newton_last in R as (_ & fx & x & st & g0 & gr & he & nf & mm & g & Hin & Hx & NS & Hmm & VO & RS & G & GE & CR & HH & _).
  rewrite P1 in *. split; [exact V|]. split; [exact St|]. split; [exact S'|]. split; [exact W'|]. rewrite Dt. split; [exact Mo|]. split; [exact Pa|].
  pose proof NS as NS0. apply newton_step_inv in NS as (y & der & hs & full & i1 & Ev & Ob & Gr & He & Sv & Ci & Est).
  exists x, mm, y, der, hs, g0, gr, he, full. do 8 (split; [assumption|]). split; [exists g; auto|]. intros Lf.
  eapply move_free; eauto.
Qed.
End Loop.
