(** Broyden's method on a MaxLike object: what a fit that returned has done. *)
From Coq Require Import String.
From Verif Require Import Prelude DenseModel AnalyticSpec DenseProofs NDArray NDProofs TensorModel TensorSpec FuncModel FuncSpec FTModel FTSpec FTBuilt LTModel LTSpec ETModel ParamModel ParamSpec ParamProofs AssembleModel AssembleSpec OTModel OTSpec OTForm OTSim OTSim2 OTThm FitModel FitSpec FitProofs FitPropProofs NTLoop.
From Verif Require AssembleNewton AssembleProofs.
From Coquelicot Require Import Coquelicot.
From Coq Require Import Reals Lra Sorted.
From Verif Require Import NTModel NTSpec NTLike NTThm NTCon NTFit NBSpec.
Import List ListNotations.
Open Scope R_scope.

(** the flat gradient from a call of the model and of its grad *)
Section point.
Variables (dat : pst) (D : list pval -> Prop) (m : maxlike) (la : linalg) (d : string -> option tensor) (cons regs : list term) (ss : list pst).
Hypothesis FP : fit_problem ss dat D m d cons regs.
Hypothesis Tot : total d dat <> 0.
Notation E := (fit_of m la).
Notation o := (ml_model m).
Notation pen := (goal m d dat regs).
Variable x : list (param R).
Hypothesis PO : params_ok x.
Hypothesis Ax : axes x = ss.
Hypothesis Dx : D (map arr_of x).
Lemma point_grad : exists y der G, model_call E x = Ok y /\ model_grad E x = Ok der /\ FitModel.flat_grad E d x y der = Ok G /\ length G = (n_free x + length cons)%nat /\
  (forall k i a, nth_error (free_coords x) k = Some (i, a) -> is_partial pen i a x (nth k G 0)) /\
  (forall k c, nth_error cons k = Some c -> nth (n_free x + k) G 0 = con_value c x).
Proof.
  destruct (problem_object _ _ _ _ _ _ _ FP) as (e & Ee & EN & HN & MO).
  pose proof (MO _ (or_introl eq_refl)) as M. set (mo := mkML e (o_f o) (data d "N") (ml_con m) (ml_reg m)) in *.
  assert (M' : ml_object (axes x) D mo (log_likelihood (ml_class m) d dat (o_f o)) cons regs) by now rewrite Ax.
  destruct (flat_grad_ok x PO D mo _ cons regs M' (ml_ins dat D m d cons regs ss FP x PO Ax Dx)) as (G & EG & LG & DG & CG).
  unfold flat_grad_t in EG. cbn [mo m_model] in EG. cbn [fit_of model_call model_grad FitModel.flat_grad].
  destruct (t_call (o_f o) (map arr_of x)) as [y|] eqn:Ey; [|discriminate EG]. cbn [rbind] in EG.
  destruct (ders (o_f o) (map arr_of x)) as [der|] eqn:Ed; [|discriminate EG]. cbn [rbind] in EG.
  rewrite AssembleNewton.free_coords_length in LG, CG.
  exists y, der, G. split; [reflexivity|]. split; [reflexivity|]. split; [unfold with_data; rewrite Ee, EN; exact EG|]. split; [exact LG|]. split; [exact DG|exact CG].
Qed.
End point.
Lemma nth_zip (op : R -> R -> R) : forall a b k, (k < length a)%nat -> length a = length b -> nth k (map (fun '(x, y) => op x y) (combine a b)) 0 = op (nth k a 0) (nth k b 0).
Proof. induction a as [|u a IH]; intros [|w b] [|k] Hk Hl; cbn in *; try lia; [reflexivity|]. apply IH; lia. Qed.
(** sums *)
Lemma Rsum_split n k f : Rsum f (seq 0 (n + k)) = Rsum f (seq 0 n) + Rsum (fun j => f (n + j)%nat) (seq 0 k).
Proof.
  rewrite seq_app. unfold Rsum. rewrite map_app, fold_right_app. cbn [Nat.add]. rewrite <- (map_map (fun j => (n + j)%nat) f (seq 0 k)).
  replace (map (fun j => (n + j)%nat) (seq 0 k)) with (seq n k).
  - set (z := fold_right Rplus 0 (map f (seq n k))). induction (seq 0 n) as [|a l IH]; cbn; [ring|]. rewrite IH. ring.
  - clear. assert (G : forall j, seq (n + j) k = map (fun i => (n + i)%nat) (seq j k)).
    { induction k as [|k IH]; intros j; cbn; [reflexivity|]. f_equal. rewrite <- IH. f_equal. lia. }
    rewrite <- (G 0%nat). f_equal. lia.
Qed.
Lemma Rsum_zero (l : list nat) f : (forall k, In k l -> f k = 0) -> Rsum f l = 0.
Proof. induction l as [|a l IH]; intros Hz; [reflexivity|]. rewrite Rsum_cons, IH, Hz; [ring|now left|]. intros k Hk. apply Hz. now right. Qed.
Lemma Rsum_delta n j (f : nat -> R) : (j < n)%nat -> Rsum (fun l => (if (l =? j)%nat then 1 else 0) * f l) (seq 0 n) = f j.
Proof.
  intros Hj. replace n with (j + (1 + (n - j - 1)))%nat by lia. rewrite !Rsum_split.
  rewrite (Rsum_zero (seq 0 j)), (Rsum_zero (seq 0 (n - j - 1))).
  - unfold Rsum. cbn [seq map fold_right]. rewrite Nat.add_0_r, Nat.eqb_refl. ring.
  - intros k Hk. destruct (Nat.eqb_spec (j + (1 + k)) j) as [Q|_]; [lia|ring].
  - intros k Hk. apply in_seq in Hk. destruct (Nat.eqb_spec k j) as [Q|_]; [lia|ring].
Qed.

Section fit.
Variables (m : maxlike) (la : linalg) (tol : R) (v : nat) (dat : pst) (D : list pval -> Prop) (cons regs : list term) (d : string -> option tensor) (start : list (param R)).
Hypothesis FP : fit_problem (axes start) dat D m d cons regs.
Hypothesis PO : params_ok start.
Hypothesis Hf : (1 <= n_free start)%nat.
Hypothesis Tot : 0 < total d dat.
Hypothesis Dot : exact_dot la.
Hypothesis Upd : exact_update la.
Notation E := (fit_of m la).
Notation pen := (goal m d dat regs).
Notation nf := (n_free start).
Notation nc := (length cons).

Lemma start_wf : Forall param_wf start.
Proof. eapply Forall_impl; [|exact (proj1 PO)]. now intros p []. Qed.
(** the weights of an affine constraint *)
Definition affine_with (c : term) (b : R) (w : nat -> idx -> R) : Prop :=
  forall ps, are_pars (axes start) ps -> arrays ps -> term_at ps c = b + over_params (axes start) (fun i x => w i x * par_entry ps i x).
Definition wgt (w : nat -> idx -> R) (k : nat) : R := let ia := nth k (free_coords start) (0, 0)%nat in w (fst ia) (ipos start (fst ia) (snd ia)).
(** the rows of J for the free entries, weighted, give the row of a multiplier *)
Definition bordered (J : list (list R)) : Prop := length J = (nf + nc)%nat /\
  forall k c b w, nth_error cons k = Some c -> affine_with c b w -> forall l, (l < nf + nc)%nat ->
    Rsum (fun i => wgt w i * nth l (nth i J []) 0) (seq 0 nf) = if (l =? nf + k)%nat then 1 else 0.
Record loop_inv (J : list (list R)) (g : R) (grad flat : list R) (x : list (param R)) : Prop := mkLI {
  li_flat : flat_of start flat x; li_frame : same_frame start x; li_ok : params_ok x; li_dom : D (map arr_of x);
  li_g : g = pen x / total d dat; li_len : length grad = (nf + nc)%nat;
  li_con : forall k c, nth_error cons k = Some c -> nth (nf + k) grad 0 = con_value c x;
  li_J : bordered J }.

(** weighted step *)
Lemma bordered_dot J k c b w u r : bordered J -> nth_error cons k = Some c -> affine_with c b w -> length u = (nf + nc)%nat ->
  (forall i, (i < nf)%nat -> nth i r 0 = row_dot J i u) -> Rsum (fun i => wgt w i * nth i r 0) (seq 0 nf) = nth (nf + k) u 0.
Proof.
  intros [_ Bo] Ek Af Lu Hr. pose proof (nth_error_lt _ _ _ Ek) as Lk.
  rewrite (Rsum_ext _ (fun i => Rsum (fun l => wgt w i * nth l (nth i J []) 0 * nth l u 0) (seq 0 (nf + nc)))).
  - rewrite Rsum_swap. rewrite (Rsum_ext _ (fun l => (if (l =? nf + k)%nat then 1 else 0) * nth l u 0)).
    + apply (Rsum_delta (nf + nc) (nf + k) (fun l => nth l u 0)). lia.
    + intros l Hl. apply in_seq in Hl. rewrite Rsum_scal_r. rewrite (Bo k c b w Ek Af l) by lia. reflexivity.
  - intros i Hi. apply in_seq in Hi. rewrite Hr by lia. unfold row_dot. rewrite Lu, <- Rsum_scal. apply Rsum_ext. intros l _. ring.
Qed.
Lemma bordered_update J u dg J' grad' grad : bordered J -> length dg = (nf + nc)%nat ->
  (forall k c b w, nth_error cons k = Some c -> affine_with c b w -> Rsum (fun i => wgt w i * nth i u 0) (seq 0 nf) = - nth (nf + k) grad 0 /\ nth (nf + k) grad' 0 = 0 /\ nth (nf + k) dg 0 = nth (nf + k) grad' 0 - nth (nf + k) grad 0) ->
  la_broyden la J u dg = Ok J' -> bordered J'.
Proof.
  intros Bo Ld Hu Eu. destruct (Upd _ _ _ _ Eu) as (Nz & LJ & Ent). split; [destruct Bo; congruence|].
  intros k c b w Ek Af l Hl. destruct (Hu k c b w Ek Af) as (S1 & S2 & S3). set (dd := Rsum _ (seq 0 (length dg))) in *.
  assert (LJ0 : length J = (nf + nc)%nat) by apply Bo.
  rewrite (Rsum_ext _ (fun i => wgt w i * nth l (nth i J []) 0 + (wgt w i * nth i u 0 + (-1) * (wgt w i * row_dot J i dg)) * (nth l dg 0 / dd))).
  - rewrite Rsum_plus, Rsum_scal_r, Rsum_plus, S1, Rsum_scal. rewrite (proj2 Bo k c b w Ek Af l Hl).
    rewrite (Rsum_ext (fun i => wgt w i * row_dot J i dg) (fun i => wgt w i * nth i (map (fun i => row_dot J i dg) (seq 0 nf)) 0)).
    + rewrite (bordered_dot J k c b w dg (map (fun i => row_dot J i dg) (seq 0 nf)) Bo Ek Af Ld).
      * rewrite S3, S2. field. exact Nz.
      * intros i Hi. rewrite (nth_indep _ 0 (row_dot J 0 dg)) by (rewrite map_length, seq_length; lia). rewrite (map_nth (fun i => row_dot J i dg)), seq_nth by lia. reflexivity.
    + intros i Hi. apply in_seq in Hi. rewrite (nth_indep _ 0 (row_dot J 0 dg)) by (rewrite map_length, seq_length; lia). rewrite (map_nth (fun i => row_dot J i dg)), seq_nth by lia. reflexivity.
  - intros i Hi. apply in_seq in Hi. rewrite Ent by lia. field. exact Nz.
Qed.
Lemma nth_neg (l : list R) i : nth i (map Ropp l) 0 = - nth i l 0.
Proof. destruct (Nat.lt_ge_cases i (length l)) as [Hi|Hi]; [rewrite (nth_indep _ 0 (- 0)) by (now rewrite map_length); apply (map_nth Ropp)|]. rewrite !nth_overflow by (try rewrite map_length; lia). ring. Qed.
(** the step of the loop *)
Lemma step_move J g grad flat x r fl q : loop_inv J g grad flat x -> la_dot la J grad = Ok r -> v_iadd E flat (firstn nf (map Ropp r)) = Ok fl -> reshape_params start fl = Ok q ->
  moved_by 1 r x q /\ params_ok q /\ flat_of start fl q /\ same_frame start q /\
  (forall k c b w, nth_error cons k = Some c -> affine_with c b w -> con_value c q = 0).
Proof.
  intros [Fo Fr POx Dx Eg Lg Cg Bo] Er Ea Rs. destruct (Dot _ _ _ Er) as [Lr Hr]. pose proof start_wf as W.
  destruct (reshape_same_frame _ _ _ W Rs) as [Fq Wq]. assert (POq : params_ok q) by exact (frame_ok _ _ PO Fq Wq).
  assert (LJ : length J = (nf + nc)%nat) by apply Bo.
  assert (Fx : free_entries x = firstn nf flat /\ (nf <= length flat)%nat).
  { destruct Fo as [[-> ->]|Hx].
    - rewrite free_entries_flat. unfold free_concat. pose proof (concat_compressed_length start W) as Lc. rewrite <- n_free_total in Lc. rewrite <- Lc. split; [|lia]. now rewrite firstn_all.
    - split; [now apply free_of_reshape|]. rewrite n_free_total. now apply reshape_params_inv in Hx. }
  destruct Fx as [Fx Lx]. assert (Mv : moved_by 1 r x q).
  { split.
    - destruct Fr as (A1 & A2 & A3 & A4), Fq as (B1 & B2 & B3 & B4). repeat split; congruence.
    - rewrite (frame_nfree _ _ Fr). intros k Hk. rewrite Fx, (free_of_reshape _ _ _ W Rs).
      assert (En : forall l : list R, nth k (firstn nf l) 0 = nth k l 0).
      { intros l. destruct (Nat.lt_ge_cases k (length l)) as [Hl|Hl]; [|rewrite !nth_overflow by (try rewrite firstn_length; lia); reflexivity].
        rewrite <- (firstn_skipn nf l) at 2. rewrite app_nth1 by (rewrite firstn_length; lia). reflexivity. }
      rewrite !En. unfold v_iadd in Ea. set (st := firstn nf (map Ropp r)) in *. assert (Ls : length st = nf) by (unfold st; rewrite firstn_length, map_length; lia).
      assert (Es : nth k st 0 = - nth k r 0) by (unfold st; rewrite En; apply nth_neg).
      destruct (Nat.eqb_spec (length flat) (length st)) as [El|Nl].
      + injection Ea as <-. cbn [fit_of f_add]. transitivity (nth k flat 0 + nth k st 0); [|rewrite Es; ring].
        apply (nth_zip Rplus); [lia|exact El].
      + destruct st as [|y [|]] eqn:Est; try discriminate Ea. cbn in Ls. injection Ea as <-. assert (k = 0%nat) by lia. subst k.
        destruct flat as [|a flat]; [cbn in Lx; lia|]. cbn [nth] in Es. rewrite Es. cbn [map nth fit_of f_add]. lra. }
  split; [exact Mv|]. split; [exact POq|]. split; [now right|]. split; [exact Fq|].
  intros k c b w Ek Af. pose proof (frame_axes _ _ Fr) as Ax.
  rewrite (moved_affine (axes start) b w x q c 1 r POx POq Ax Af Mv). rewrite (frame_nfree _ _ Fr).
  rewrite <- (Cg k c Ek). rewrite <- (bordered_dot J k c b w grad r Bo Ek Af Lg) by (intros i Hi; apply Hr; lia).
  rewrite (Rsum_ext (fun i => wgt w i * nth i r 0) (fun k0 => let ia := nth k0 (free_coords x) (0, 0)%nat in w (fst ia) (ipos x (fst ia) (snd ia)) * nth k0 r 0)); [ring|].
  intros i _. unfold wgt. cbn zeta. now rewrite (frame_masks _ _ Fr), (frame_ipos _ _ _ _ Fr).
Qed.
(** the loop *)
Lemma loop_success s : s_params s = start -> s_data s = d -> forall k J g grad flat x tr s' out,
  broyden_loop E v tol nf s k J g grad flat = (tr, s', Ok out) -> loop_inv J g grad flat x -> (forall q, tried start tr q -> D (map arr_of q)) ->
  s_data s' = d /\ s_conv s' = true /\ same_frame start (s_params s') /\ params_ok (s_params s') /\ tried start tr (s_params s') /\
  (forall k c b w, nth_error cons k = Some c -> affine_with c b w -> con_value c (s_params s') = 0) /\
  (exists y, (y = x \/ tried start tr y) /\ same_frame start y /\ pen (s_params s') <> 0 /\ Rabs (pen y / pen (s_params s') - 1) < tol) /\
  exists J' h, bordered J' /\ la_pinvh la J' = Ok h /\ s_hess s' = Some h.
Proof.
  intros Es Ed. induction k as [|k IH]; intros J g grad flat x tr s' out R LI Dm; cbn [broyden_loop] in R; [discriminate|].
  rewrite Es, Ed in R. change (m_dot E J grad) with (la_dot la J grad) in R. change (map (f_neg E)) with (map Ropp) in R.
  destruct (la_dot la J grad) as [r|] eqn:Er; [|discriminate R]. cbn [rbind] in R.
  destruct (v_iadd E flat (firstn nf (map Ropp r))) as [fl|] eqn:Ea; [|discriminate R]. cbn [rbind] in R.
  destruct (reshape_params start fl) as [q|] eqn:Rs; [|discriminate R]. cbn [rbind] in R.
  destruct (step_move _ _ _ _ _ _ _ _ LI Er Ea Rs) as (Mv & POq & Foq & Fq & Cq).
  assert (Tq : forall tr', tried start (EvTrial (f_one E) fl :: tr') q) by (intros tr'; exists (f_one E), fl; split; [now left|exact Rs]).
  assert (Dq : D (map arr_of q)).
  { apply Dm. destruct (g_at E d q) as [ng|]; [|discriminate R]. destruct (0 <? v)%nat; [discriminate R|]. destruct (criterion E g ng tol) as [[]|]; [| |discriminate R].
    - destruct (sp_pinvh E J); [|discriminate R]. injection R as <- _ _. apply Tq.
    - destruct (rbind (model_call E q) _) as [[a b]|]; [|discriminate R]. destruct (broyden_loop _ _ _ _ _ _ _ _ _ _) as [[a1 a2] a3]. injection R as <- _ _. apply Tq. }
  assert (Axq : axes q = axes start) by now apply frame_axes.
  rewrite (point_g dat D m la d cons regs (axes start) FP ltac:(lra) q POq Axq Dq) in R.
  destruct (0 <? v)%nat; [discriminate R|].
  assert (Cr : forall out, criterion E g (pen q / total d dat) tol = Ok out -> pen q <> 0 /\ (out = true -> Rabs (pen x / pen q - 1) < tol)).
  { intros o Ho. unfold criterion in Ho. cbn [fit_of f_div f_lt f_abs f_sub f_one] in Ho. unfold Rdiv_py in Ho. destruct (Req_EM_T (pen q / total d dat) 0) as [|Nz]; [discriminate|].
    assert (Nf : pen q <> 0) by (intros Z; apply Nz; rewrite Z; unfold Rdiv; ring). split; [exact Nf|]. intros ->. cbn [rbind] in Ho. injection Ho as Ho. unfold Rlt_b in Ho. destruct (Rlt_dec _ _) as [Hl|]; [|discriminate].
    rewrite (li_g _ _ _ _ _ LI) in Hl. replace (pen x / pen q) with (pen x / total d dat / (pen q / total d dat)); [exact Hl|]. field. split; first [exact Nf | lra]. }
  destruct (criterion E g (pen q / total d dat) tol) as [[]|] eqn:Ec; [| |discriminate R].
  - change (sp_pinvh E J) with (la_pinvh la J) in R. destruct (la_pinvh la J) as [h|] eqn:Eh; [|discriminate R]. injection R as <- <- <-. cbn.
    split; [exact Ed|]. split; [reflexivity|]. split; [exact Fq|]. split; [exact POq|]. split; [apply Tq|]. split; [exact Cq|].
    split; [exists x; split; [now left|]; split; [exact (li_frame _ _ _ _ _ LI)|]; destruct (Cr _ eq_refl) as [A B]; auto|].
    exists J, h. split; [exact (li_J _ _ _ _ _ LI)|]. auto.
  - destruct (point_grad dat D m la d cons regs (axes start) FP q POq Axq Dq) as (y & der & G & Ey & Eg & EG & LG & _ & CG).
    rewrite Ey in R. cbn [rbind] in R. rewrite Eg in R. cbn [rbind] in R. rewrite EG in R. cbn [rbind] in R.
    rewrite (frame_nfree _ _ Fq) in LG, CG. pose proof (li_len _ _ _ _ _ LI) as Lg.
    unfold v_op in R. rewrite LG, Lg, Nat.eqb_refl in R. cbn [rbind] in R.
    set (dg := map _ (combine G grad)) in R. change (broyden_update E J) with (la_broyden la J) in R.
    destruct (la_broyden la J (map Ropp r) dg) as [J'|] eqn:Eu; [|discriminate R]. cbn [rbind] in R.
    assert (Ldg : length dg = (nf + nc)%nat) by (unfold dg; rewrite map_length, combine_length, LG, Lg; lia).
    assert (Edg : forall i, (i < nf + nc)%nat -> nth i dg 0 = nth i G 0 - nth i grad 0).
    { intros i Hi. apply (nth_zip Rminus); lia. }
    assert (Bo' : bordered J').
    { apply (bordered_update J (map Ropp r) dg J' G grad (li_J _ _ _ _ _ LI) Ldg); [|exact Eu].
      intros kc c b w Ek Af. pose proof (nth_error_lt _ _ _ Ek) as Lk. split; [|split].
      - destruct (Dot _ _ _ Er) as [Lr Hr]. rewrite <- (bordered_dot J kc c b w grad r (li_J _ _ _ _ _ LI) Ek Af Lg).
        + rewrite (Rsum_ext _ (fun i => (-1) * (wgt w i * nth i r 0))) by (intros i _; rewrite nth_neg; ring). rewrite Rsum_scal. ring.
        + intros i Hi. apply Hr. destruct (li_J _ _ _ _ _ LI) as [-> _]. lia.
      - rewrite (CG kc c Ek). exact (Cq kc c b w Ek Af).
      - apply Edg. lia. }
    destruct (broyden_loop E v tol nf s k J' (pen q / total d dat) G fl) as [[tr2 s2] out2] eqn:E4. injection R as <- <- ->.
    assert (LI' : loop_inv J' (pen q / total d dat) G fl q) by (constructor; auto).
    assert (Sub : forall z, tried start tr2 z -> tried start (EvTrial (f_one E) fl :: tr2) z) by (intros z (mu & f & Hi & Rz); exists mu, f; split; [now right|exact Rz]).
    destruct (IH _ _ _ _ _ _ _ _ E4 LI') as (A1 & A2 & A3 & A4 & A5 & A6 & (y' & Hy & Fy & A7) & A8).
    + intros z Hz. apply Dm. now apply Sub.
    + split; [exact A1|]. split; [exact A2|]. split; [exact A3|]. split; [exact A4|]. split; [now apply Sub|]. split; [exact A6|].
      split; [|exact A8]. exists y'. split; [|split; [exact Fy|exact A7]]. right. destruct Hy as [-> |Hy]; [apply Tq|now apply Sub].
Qed.
(** the inverse of the Hessian at the start *)
Lemma bordered_start H J : constraint_rows cons start H -> inverse H J -> bordered J.
Proof.
  intros [LH Rw] [LJ Iv]. split; [congruence|].
  intros k c b w Ek Af l Hl. pose proof (nth_error_lt _ _ _ Ek) as Lk. destruct (Rw k c Ek (ex_intro _ b (ex_intro _ w Af))) as [Bor Cor].
  pose proof (Iv (nf + k)%nat l ltac:(lia) ltac:(lia)) as Row. rewrite LH in Row. rewrite Rsum_split in Row.
  rewrite (Rsum_zero (seq 0 nc)) in Row by (intros j Hj; apply in_seq in Hj; rewrite Cor by lia; ring). rewrite Rplus_0_r in Row.
  rewrite (Nat.eqb_sym l). rewrite <- Row. apply Rsum_ext. intros i Hi. apply in_seq in Hi. f_equal. unfold wgt. destruct (nth i (free_coords start) (0, 0)%nat) as [j a] eqn:Ei.
  assert (El : nth_error (free_coords start) i = Some (j, a)) by (rewrite <- Ei; apply nth_error_nth'; rewrite AssembleNewton.free_coords_length; lia).
  destruct (coord_in start i j a El) as [Hj Ha]. cbn [fst snd]. cbn zeta.
  rewrite <- (is_derive_unique _ _ _ (Bor i j a El)). symmetry. apply is_derive_unique. exact (affine_partial (axes start) b w start c j a PO eq_refl Hj Ha Af).
Qed.
Lemma system_rows f G H : newton_system f cons start G H -> constraint_rows cons start H.
Proof.
  intros [Sz _ _ _ Bor _ Cor]. destruct Sz as (_ & LH & _). split; [exact LH|]. intros k c Ek _. pose proof (nth_error_lt _ _ _ Ek) as Lk.
  split; [intros l j a El; exact (Bor k c l j a Ek El)|]. intros l Hl. apply Cor; lia.
Qed.
(** the inverse of J again has these rows *)
Lemma bordered_back J K : bordered J -> inverse J K -> constraint_rows cons start K.
Proof.
  intros [LJ Bo] [LK Iv]. split; [congruence|]. intros k c Ek (b & w & Af). pose proof (nth_error_lt _ _ _ Ek) as Lk.
  assert (Row : forall j, (j < nf + nc)%nat -> nth j (nth (nf + k) K []) 0 = if (j <? nf)%nat then wgt w j else 0).
  { intros j Hj. rewrite <- (Rsum_delta (nf + nc) (nf + k) (fun l => nth j (nth l K []) 0)) by lia.
    rewrite (Rsum_ext _ (fun l => Rsum (fun i => wgt w i * (nth l (nth i J []) 0 * nth j (nth l K []) 0)) (seq 0 nf))).
    - rewrite Rsum_swap. rewrite (Rsum_ext _ (fun i => wgt w i * (if (i =? j)%nat then 1 else 0))).
      + destruct (Nat.ltb_spec j nf) as [Hl|Hl].
        * rewrite (Rsum_ext _ (fun i => (if (i =? j)%nat then 1 else 0) * wgt w i)) by (intros; ring). now apply (Rsum_delta nf j (wgt w)).
        * apply Rsum_zero. intros i Hi. apply in_seq in Hi. destruct (Nat.eqb_spec i j) as [Q|_]; [lia|ring].
      + intros i Hi. apply in_seq in Hi. rewrite Rsum_scal. f_equal. rewrite <- (Iv i j) by lia. now rewrite LJ.
    - intros l Hl. apply in_seq in Hl. rewrite <- (Bo k c b w Ek Af l) by lia. rewrite <- Rsum_scal_r. apply Rsum_ext. intros i _. ring. }
  split.
  - intros l j a El. pose proof (nth_error_lt _ _ _ El) as Ll. rewrite AssembleNewton.free_coords_length in Ll. rewrite Row by lia. destruct (Nat.ltb_spec l nf) as [_|Q]; [|lia].
    destruct (coord_in start l j a El) as [Hj Ha]. unfold wgt. rewrite (nth_error_nth _ _ _ El). cbn [fst snd]. exact (affine_partial (axes start) b w start c j a PO eq_refl Hj Ha Af).
  - intros l Hl. rewrite Row by lia. destruct (Nat.ltb_spec l nf) as [Q|_]; [lia|reflexivity].
Qed.
End fit.

Section top.
Variables (m : maxlike) (la : linalg) (tol : R) (ms : Z) (v : nat) (method : string) (kw : list (string * nda)) (s s' : state R (list (list R)) tensor) (tr : list (event R)).
Variables (dat : pst) (D : list pval -> Prop) (cons regs : list term).
Hypothesis Hm : lower method = "broyden"%string.
Hypothesis Run : ml_fit m la tol ms v method kw s = (tr, s', Ok true).
Hypothesis PO : params_ok (s_params s).
Hypothesis Hf : (1 <= n_free (s_params s))%nat.
Hypothesis FP : fit_problem (axes (s_params s)) dat D m (s_data s') cons regs.
Hypothesis Dst : D (map arr_of (s_params s)).
Hypothesis Dom : forall q, tried (s_params s) tr q -> D (map arr_of q).
Hypothesis Tot : 0 < total (s_data s') dat.
Hypothesis Dot : exact_dot la.
Hypothesis Upd : exact_update la.
Hypothesis Use : forall H J, la_pinvh la H = Ok J -> (exists G, newton_system (goal m (s_data s') dat regs) cons (s_params s) G H) \/
  (s_conv s = true /\ s_hess s = Some H /\ length H = (n_free (s_params s) + length cons)%nat) -> constraint_rows cons (s_params s) H /\ inverse H J.
Notation start := (s_params s).
Notation final := (s_params s').
Notation pen := (goal m (s_data s') dat regs).

Theorem fit_broyden : s_conv s' = true /\ same_frame start final /\ params_ok final /\
  (forall c, In c cons -> affine_term (axes start) c -> con_value c final = 0) /\
  (exists x, (x = start \/ tried start tr x) /\ same_frame start x /\ pen final <> 0 /\ Rabs (pen x / pen final - 1) < tol) /\
  exists J h, bordered cons start J /\ la_pinvh la J = Ok h /\ s_hess s' = Some h.
Proof.
  assert (Nn : ~ is_newton method) by (unfold is_newton; rewrite Hm; discriminate).
  pose proof Run as R. unfold ml_fit in R. apply fit_cases in R as [(e' & L & X & _)|(s1 & r & L & R)]; [discriminate|].
  destruct (load_data_frame _ _ _ _ L) as (P1 & P2 & P3).
  destruct R as [(Z & _ & X & _)|(Hne & [(N & _)|[(_ & _ & R)|(_ & N & _)]])]; try contradiction; [discriminate|].
  apply broyden_inv in R as [(e' & _ & X & _)|(g & tr0 & s0 & G0 & R & Et & C)]; [discriminate|].
  destruct C as [(b & Eb & ->)|(e' & X & _)]; [|discriminate].
  assert (Ed : s_data s0 = s_data s1).
  { apply broyden_try_inv in R as [(e'' & X & _)|(s2 & i1 & J & gr & A & B & _ & R)]; [discriminate|]. apply broyden_success in R as (_ & _ & _ & Dt & _). congruence. }
  assert (Sub : forall q, tried start tr0 q -> tried start tr q) by (intros q (mu & f & Hi & Rq); exists mu, f; split; [rewrite Et; apply in_or_app; now right|exact Rq]).
  rewrite Ed in *. set (d := s_data s1) in *. rewrite P1 in *.
  pose proof (point_g dat D m la d cons regs (axes start) FP ltac:(lra) start PO eq_refl Dst) as Gs. rewrite G0 in Gs. injection Gs as Eg.
  destruct (point_step dat D m la d cons regs (axes start) FP ltac:(lra) start PO eq_refl Dst) as (y & der & hs & G & H & Ev & Ob & Gr & He & NS).
  pose proof (ns_size _ _ _ _ _ NS) as (LG & _). assert (Nc : n_constraints (fit_of m la) = length cons) by (cbn; rewrite (fp_con _ _ _ _ _ _ _ FP); apply map_length).
  unfold broyden_try in R. rewrite P1 in R. fold d in R. rewrite Ev in R. cbn [rbind] in R. rewrite Gr in R. cbn [rbind] in R. rewrite LG, P3, P2 in R. rewrite He in R. cbn [rbind] in R.
  set (reuse := andb (s_conv s) _) in R.
  assert (U : exists s2 H2 J, s_params s2 = start /\ s_data s2 = d /\ la_pinvh la H2 = Ok J /\ constraint_rows cons start H2 /\ inverse H2 J /\
    broyden_loop (fit_of m la) v tol (n_free start) s2 (Z.to_nat ms) J g G (free_concat start) = (tr0, s0, Ok true)).
  { assert (Fin : forall s2 H2, s_params s2 = start -> s_data s2 = d -> s_hess s2 = Some H2 ->
      (exists G, newton_system (goal m d dat regs) cons start G H2) \/ (s_conv s = true /\ s_hess s = Some H2 /\ length H2 = (n_free start + length cons)%nat) ->
      match s_hess s2 with None => ([], s2, Raise AttributeError) | Some h => match (let! J := sp_pinvh (fit_of m la) h in let! i1 := cut_index (n_constraints (fit_of m la)) (n_free start + length cons) in Ok (J, i1)) with
        | Raise e => ([], s2, Raise e) | Ok (J, i1) => broyden_loop (fit_of m la) v tol i1 s2 (Z.to_nat ms) J g G (free_concat start) end end = (tr0, s0, Ok true) ->
      exists s2 H2 J, s_params s2 = start /\ s_data s2 = d /\ la_pinvh la H2 = Ok J /\ constraint_rows cons start H2 /\ inverse H2 J /\
        broyden_loop (fit_of m la) v tol (n_free start) s2 (Z.to_nat ms) J g G (free_concat start) = (tr0, s0, Ok true)).
    { intros s2 H2 Q1 Q2 Q3 Q4. rewrite Q3. change (sp_pinvh (fit_of m la) H2) with (la_pinvh la H2). destruct (la_pinvh la H2) as [J|] eqn:EJ; [|discriminate]. cbn [rbind].
      rewrite Nc, cut_index_spec by exact Hf. cbn [rbind]. intros Q. destruct (Use H2 J EJ Q4) as [U1 U2]. exists s2, H2, J. do 5 (split; [assumption|]). exact Q. }
    destruct reuse eqn:Re.
    - unfold reuse in Re. apply andb_prop in Re as [Re1 Re2]. destruct (s_hess s) as [h|] eqn:Eh; [|discriminate Re2]. apply Nat.eqb_eq in Re2.
      apply (Fin s1 h P1 eq_refl P2); [right; auto|]. exact R.
    - apply (Fin (set_hess s1 H) H P1 eq_refl eq_refl); [left; now exists G|]. exact R. }
  destruct U as (s2 & H2 & J & Q1 & Q2 & EJ & CR & IJ & Rl).
  assert (LI : loop_inv m dat D cons regs d start J g G (free_concat start) start).
  { constructor; [left; auto|repeat split|exact PO|exact Dst|exact Eg|exact LG|exact (ns_con _ _ _ _ _ NS)|eapply bordered_start; eauto]. }
  destruct (loop_success m la tol v dat D cons regs d start FP PO Hf Tot Dot Upd s2 Q1 Q2 _ _ _ _ _ _ _ _ _ Rl LI) as (A1 & A2 & A3 & A4 & A5 & A6 & (x & Hx & Fx & A7) & A8).
  { intros q Hq. apply Dom. now apply Sub. }
  split; [exact A2|]. split; [exact A3|]. split; [exact A4|]. split; [|split; [|exact A8]].
  - intros c Hc (b0 & w & V). apply In_nth_error in Hc as (k & Ek). exact (A6 k c b0 w Ek V).
  - exists x. split; [destruct Hx as [->|Hx]; [now left|right; now apply Sub]|]. split; [exact Fx|exact A7].
Qed.
End top.

Lemma rows_frame cons x y H : params_ok x -> params_ok y -> same_frame x y -> constraint_rows cons x H -> constraint_rows cons y H.
Proof.
  intros POx POy Fr [LH Rw]. unfold constraint_rows. rewrite (frame_nfree _ _ Fr), (frame_axes _ _ Fr), (frame_masks _ _ Fr). split; [exact LH|]. intros k c Ek Af. destruct (Rw k c Ek Af) as [Bor Cor]. split; [|exact Cor].
  destruct Af as (b & w & V). intros l j a El. destruct (coord_in x l j a El) as [Hj Ha].
  pose proof El as El'. rewrite <- (frame_masks _ _ Fr) in El'. destruct (coord_in y l j a El') as [Hj' Ha'].
  replace (nth l (nth (n_free x + k) H []) 0) with (w j (ipos y j a)).
  - exact (affine_partial (axes x) b w y c j a POy (frame_axes _ _ Fr) Hj' Ha' V).
  - rewrite (frame_ipos _ _ j a Fr). rewrite <- (is_derive_unique _ _ _ (Bor l j a El)). symmetry. apply is_derive_unique. exact (affine_partial (axes x) b w x c j a POx eq_refl Hj Ha V).
Qed.
