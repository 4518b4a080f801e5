(** Newton's method on a MaxLike object: what a fit that returned has done. *)
From Coq Require Import String.
From Verif Require Import Prelude DenseModel AnalyticSpec DenseProofs NDArray NDProofs TensorModel TensorSpec FuncModel FuncSpec FTModel FTSpec FTBuilt LTModel LTSpec ETModel ParamModel ParamSpec ParamProofs AssembleModel AssembleSpec OTModel OTSpec OTForm OTSim OTThm FitModel FitSpec FitProofs FitPropProofs NTLoop.
From Verif Require AssembleNewton AssembleProofs.
From Coquelicot Require Import Coquelicot.
From Coq Require Import Reals Lra Sorted.
From Verif Require Import NTModel NTSpec NTLike NTThm NTCon.
Import List ListNotations.
Open Scope R_scope.

Lemma multipliers_real m la k : In k (multipliers (fit_of m la)) -> In k [1; 1 / 2; 1 / 4; 1 / 8; 1 / 16].
Proof. unfold multipliers. cbn. intros [<-|[<-|[<-|[<-|[<-|[]]]]]]; [left; lra|right; left; lra|do 2 right; left; lra|do 3 right; left; lra|do 4 right; left; lra]. Qed.
Lemma ge_real m la : ge_transitive (fit_of m la).
Proof. intros a b c. cbn. unfold Rge_b. destruct (Rge_dec a b), (Rge_dec b c), (Rge_dec a c); try discriminate; auto. intros _ _. lra. Qed.
Lemma moved_list mult x q full : Forall param_wf x -> same_frame x q -> (n_free x <= length full)%nat ->
  free_entries q = map (fun '(a, b) => a - mult * b) (combine (free_entries x) (firstn (n_free x) full)) -> moved_by mult full x q.
Proof.
  intros Wf Fr L E. split; [exact Fr|]. intros k Hk. rewrite E.
  assert (Lx : length (free_entries x) = n_free x) by (rewrite (AssembleNewton.free_entries_coords 0) by exact Wf; now rewrite map_length, AssembleNewton.free_coords_length).
  set (l := combine _ _). assert (Ll : (k < length l)%nat) by (unfold l; rewrite combine_length, firstn_length; lia).
  transitivity (fst (nth k l (0, 0)) - mult * snd (nth k l (0, 0))).
  { clearbody l. revert k Hk Ll. clear. induction l as [|[a b] l IH]; intros [|k] Hk Ll; cbn in *; try lia; [reflexivity|]. apply IH; lia. }
  unfold l. rewrite combine_nth by (rewrite firstn_length; lia). cbn [fst snd].
  f_equal. f_equal. rewrite <- (firstn_skipn (n_free x) full) at 2. rewrite app_nth1 by (rewrite firstn_length; lia). reflexivity.
Qed.
(** a Newton step multiplies the value of an affine constraint by 1 - mult *)
Lemma con_step f cons x G H full mult q ss k c : params_ok x -> params_ok q -> axes x = ss -> newton_system f cons x G H -> solves H full G -> moved_by mult full x q ->
  nth_error cons k = Some c -> affine_term ss c -> con_value c q = (1 - mult) * con_value c x.
Proof.
  intros PO POq Ax [Sz _ Con _ Bor _ Cor] [Ls Sv] Mv Ek (b & w & V). destruct Sz as (LG & LH & _). pose proof (nth_error_lt _ _ _ Ek) as Lk.
  rewrite (moved_affine ss b w x q c mult full PO POq Ax V Mv).
  pose proof (Sv (n_free x + k)%nat ltac:(lia)) as Row. rewrite (Con k c Ek) in Row. rewrite Ls, LG in Row.
  rewrite seq_app in Row. unfold Rsum in Row at 1. rewrite map_app, fold_right_app in Row.
  assert (Z : forall l, (forall j, In j l -> (n_free x <= j < n_free x + length cons)%nat) -> fold_right Rplus 0 (map (fun l => nth l (nth (n_free x + k) H []) 0 * nth l full 0) l) = 0).
  { induction l as [|j l IH]; intros Hl; [reflexivity|]. cbn [map fold_right]. rewrite IH by (intros; apply Hl; now right). rewrite Cor by (try lia; apply Hl; now left). ring. }
  rewrite Z in Row by (intros j Hj; apply in_seq in Hj; lia). change (Rsum (fun l => nth l (nth (n_free x + k) H []) 0 * nth l full 0) (seq 0 (n_free x)) = con_value c x) in Row.
  rewrite <- Row. cbn zeta. rewrite (Rsum_ext (fun l => nth l (nth (n_free x + k) H []) 0 * nth l full 0) (fun k0 => w (fst (nth k0 (free_coords x) (0, 0)%nat)) (ipos x (fst (nth k0 (free_coords x) (0, 0)%nat)) (snd (nth k0 (free_coords x) (0, 0)%nat))) * nth k0 full 0)).
  - ring.
  - intros l Hl. apply in_seq in Hl. f_equal. destruct (nth l (free_coords x) (0, 0)%nat) as [j a] eqn:E.
    assert (El : nth_error (free_coords x) l = Some (j, a)) by (rewrite <- E; apply nth_error_nth'; rewrite AssembleNewton.free_coords_length; lia).
    destruct (coord_in x l j a El) as [Hj Ha]. cbn [fst snd].
    rewrite <- (is_derive_unique _ _ _ (Bor k c l j a Ek El)). apply is_derive_unique. exact (affine_partial ss b w x c j a PO Ax Hj Ha V).
Qed.

Section fit.
Variables (m : maxlike) (la : linalg) (tol : R) (ms : Z) (v : nat) (method : string) (kw : list (string * nda)) (s s' : state R (list (list R)) tensor) (tr : list (event R)).
Variables (dat : pst) (D : list pval -> Prop) (cons regs : list term).
Hypothesis Hm : lower method = "newton"%string.
Hypothesis Run : ml_fit m la tol ms v method kw s = (tr, s', Ok true).
Hypothesis PO : params_ok (s_params s).
Hypothesis Hf : (1 <= n_free (s_params s))%nat.
Hypothesis FP : fit_problem (axes (s_params s)) dat D m (s_data s') cons regs.
Hypothesis Dom : forall x, In (EvStep x) tr \/ x = s_params s' -> D (map arr_of x).
Hypothesis Solve : forall A b x, la_solve la A b = Ok x -> solves A x b.
Hypothesis Tot : 0 < total (s_data s') dat.
Notation start := (s_params s).
Notation final := (s_params s').
Notation pen := (goal m (s_data s') dat regs).

Lemma start_wf : Forall param_wf start.
Proof. eapply Forall_impl; [|exact (proj1 PO)]. now intros p []. Qed.
Definition NF := newton_fit (fit_of m la) tol ms v method (data_args (class_dim (ml_class m)) kw) s tr s' Hm start_wf Hf (ge_real m la) Run.
Lemma visited x : In (EvStep x) tr \/ x = final -> same_frame start x /\ params_ok x /\ axes x = axes start /\ D (map arr_of x).
Proof.
  intros Hx. assert (Fr : same_frame start x /\ Forall param_wf x). { destruct NF as (V & _ & F1 & F2 & _). destruct Hx as [Hx| ->]; auto. }
  destruct Fr as [Fr W]. split; [exact Fr|]. split; [eapply frame_ok; eauto|]. split; [now apply frame_axes|]. now apply Dom.
Qed.
Lemma nf_x x : same_frame start x -> n_free x = n_free start.
Proof. apply frame_nfree. Qed.
Lemma ncons : n_constraints (fit_of m la) = length cons.
Proof. cbn. rewrite (fp_con _ _ _ _ _ _ _ FP). apply map_length. Qed.

Lemma moved_facts x y : In (EvStep x) tr -> In (EvStep y) tr \/ y = final -> moved (fit_of m la) (s_data s') start x y ->
  exists mult G H full, In mult [1; 1 / 2; 1 / 4; 1 / 8; 1 / 16] /\ newton_system pen cons x G H /\ solves H full G /\ moved_by mult full x y.
Proof.
  intros Hx Hy (mult & yv & der & hs & g0 & grad & hess & full & Hmu & Ev & Ob & Gr & He & Sv & Fe).
  destruct (visited x (or_introl Hx)) as (Fx & POx & Axx & Dx). destruct (visited y Hy) as (Fy & POy & _).
  destruct (point_step dat D m la (s_data s') cons regs (axes start) FP ltac:(lra) x POx Axx Dx) as (y' & der' & hs' & G & H & Ev' & Ob' & Gr' & He' & NS).
  rewrite Ev in Ev'. injection Ev' as <- <- <-. rewrite Gr in Gr'. injection Gr' as <-. rewrite He in He'. injection He' as <-.
  exists mult, grad, hess, full. split; [eapply multipliers_real; eauto|]. split; [exact NS|]. pose proof (Solve _ _ _ Sv) as So. split; [exact So|].
  destruct So as [Lf _]. pose proof (ns_size _ _ _ _ _ NS) as (LG & _). rewrite LG, (nf_x x Fx) in Lf. rewrite ncons in Fe. specialize (Fe Lf).
  apply moved_list; [eapply Forall_impl; [|exact (proj1 POx)]; now intros p []| |rewrite (nf_x x Fx); lia|rewrite (nf_x x Fx); exact Fe].
  destruct Fx as (A1 & A2 & A3 & A4), Fy as (B1 & B2 & B3 & B4). repeat split; congruence.
Qed.

Theorem fit_newton : same_frame start final /\ pen start <= pen final /\
  exists x mult G H full, In (EvStep x) tr /\ same_frame start x /\ In mult [1; 1 / 2; 1 / 4; 1 / 8; 1 / 16] /\
    newton_system pen cons x G H /\ s_hess s' = Some H /\ solves H full G /\ moved_by mult full x final /\
    pen x <= pen final /\ pen final <> 0 /\ Rabs (pen x / pen final - 1) < tol.
Proof.
  pose proof NF as (V & St & F1 & F2 & Mono & _ & Last). split; [exact F1|].
  assert (Gx : forall x, In (EvStep x) tr \/ x = final -> g_at (fit_of m la) (s_data s') x = Ok (pen x / total (s_data s') dat)).
  { intros x Hx. destruct (visited x Hx) as (Fx & POx & Axx & Dx). apply (point_g dat D m la (s_data s') cons regs (axes start) FP ltac:(lra) x POx Axx Dx). }
  assert (Ord : forall a b, f_ge (fit_of m la) (a / total (s_data s') dat) (b / total (s_data s') dat) = true -> b <= a).
  { intros a b Hab. cbn in Hab. unfold Rge_b in Hab. destruct (Rge_dec _ _) as [Hge|]; [|discriminate]. apply Rge_le in Hge. unfold Rdiv in Hge.
    apply Rmult_le_reg_r in Hge; [exact Hge|]. now apply Rinv_0_lt_compat. }
  split.
  - destruct Mono as (g0 & g1 & E0 & E1 & Ge).
    + intros x Hx step g0 grad hess NS. destruct (visited x (or_introl Hx)) as (Fx & POx & Axx & Dx). rewrite (Gx x (or_introl Hx)). f_equal.
      destruct (point_step dat D m la (s_data s') cons regs (axes start) FP ltac:(lra) x POx Axx Dx) as (y' & der' & hs' & G & H & Ev' & Ob' & _).
      apply newton_step_inv in NS as (y & der & hs & full & i1 & Ev & Ob & _). rewrite Ev in Ev'. injection Ev' as <- <- <-. rewrite Ob in Ob'. now injection Ob'.
    + rewrite (Gx start (or_introl St)) in E0. rewrite (Gx final (or_intror eq_refl)) in E1. injection E0 as <-. injection E1 as <-. now apply Ord.
  - destruct Last as (x & mult & y & der & hs & g0 & grad & hess & full & Hx & Ev & Ob & Gr & He & Sv & Hs & Hmu & (g & Eg & Ge & Cr) & Fe).
    destruct (visited x (or_introl Hx)) as (Fx & POx & Axx & Dx).
    destruct (moved_facts x final Hx (or_intror eq_refl)) as (mult' & G & H & full' & _).
    { exists mult, y, der, hs, g0, grad, hess, full. do 6 (split; [assumption|]). exact Fe. } clear mult' G H full'.
    destruct (point_step dat D m la (s_data s') cons regs (axes start) FP ltac:(lra) x POx Axx Dx) as (y' & der' & hs' & G & H & Ev' & Ob' & Gr' & He' & NS).
    rewrite Ev in Ev'. injection Ev' as <- <- <-. rewrite Gr in Gr'. injection Gr' as <-. rewrite He in He'. injection He' as <-. rewrite Ob in Ob'. injection Ob' as ->.
    rewrite (Gx final (or_intror eq_refl)) in Eg. injection Eg as <-.
    exists x, mult, grad, hess, full. split; [exact Hx|]. split; [exact Fx|]. split; [eapply multipliers_real; eauto|]. split; [exact NS|]. split; [exact Hs|].
    pose proof (Solve _ _ _ Sv) as So. split; [exact So|]. split.
    + destruct So as [Lf _]. pose proof (ns_size _ _ _ _ _ NS) as (LG & _). rewrite LG, (nf_x x Fx) in Lf. rewrite ncons in Fe. specialize (Fe Lf).
      apply moved_list; [eapply Forall_impl; [|exact (proj1 POx)]; now intros p []| |rewrite (nf_x x Fx); lia|rewrite (nf_x x Fx); exact Fe].
      destruct Fx as (A1 & A2 & A3 & A4), F1 as (B1 & B2 & B3 & B4). repeat split; congruence.
    + split; [now apply Ord|]. unfold criterion in Cr. cbn [fit_of f_div f_lt f_abs f_sub f_one] in Cr. unfold Rdiv_py in Cr. destruct (Req_EM_T (pen final / total (s_data s') dat) 0) as [|Nz]; [discriminate|].
      assert (Nf : pen final <> 0) by (intros Z; apply Nz; rewrite Z; unfold Rdiv; ring). split; [exact Nf|]. cbn [rbind] in Cr. injection Cr as Cr. unfold Rlt_b in Cr. destruct (Rlt_dec _ _) as [Hl|]; [|discriminate].
      replace (pen x / pen final) with (pen x / total (s_data s') dat / (pen final / total (s_data s') dat)); [exact Hl|]. field. split; first [exact Nf | lra].
Qed.
(** affine constraints *)
Theorem fit_constraints c : In c cons -> affine_term (axes start) c -> exists r, 0 <= r <= 15 / 16 /\ con_value c final = r * con_value c start.
Proof.
  intros Hc Af. apply In_nth_error in Hc as (k & Ek). pose proof NF as (_ & _ & _ & _ & _ & Path & _).
  apply (Path (fun q => exists r, 0 <= r <= 1 /\ con_value c q = r * con_value c start) (fun q => exists r, 0 <= r <= 15 / 16 /\ con_value c q = r * con_value c start)).
  - intros q (r & Hr & E). exists r. split; [lra|exact E].
  - exists 1. split; [lra|ring].
  - intros x y Hy Hx Mv (r & Hr & E). destruct (moved_facts x y Hx Hy Mv) as (mult & G & H & full & Hmu & NS & So & Mb).
    destruct (visited x (or_introl Hx)) as (Fx & POx & Axx & _). destruct (visited y Hy) as (Fy & POy & _).
    exists ((1 - mult) * r). split.
    + assert (1 / 16 <= mult <= 1) by (destruct Hmu as [<-|[<-|[<-|[<-|[<-|[]]]]]]; lra). nra.
    + rewrite (con_step pen cons x G H full mult y (axes start) k c POx POy Axx NS So Mb Ek Af), E. ring.
Qed.
End fit.
