(** When an object of FTModel.v (computing with Tensors) refines one of
    FuncModel.v (computing with dense arrays), and the primitive functions. *)
From Verif Require Import Prelude DenseModel AnalyticSpec DenseProofs NDArray NDProofs TensorModel TensorSpec TensorSpecOps TensorLemmas TensorBasic TensorSum TensorSumMain TensorBin TensorArith TensorShape TensorExpand TensorGeneric TensorGSum TensorDotCore TensorDot TensorUfunc TensorUfuncP FuncModel FuncSpec FTModel FTRep FTRep2 FTRep3 FTVal FTDiag.
From Verif Require FuncPrim FuncCompose FuncWrapP FuncLemmas.
From Coq Require Import Reals Lra.
Import List ListNotations.
Open Scope R_scope.
Section ex.
Context {ex : exdims}.

(** the parameters [ps] of shapes [ss] stand for the dense parameters [qs] *)
Definition prms (ss : list pst) (ps : list pval) (qs : list dt) : Prop :=
  length ps = length ss /\ has_sts qs ss /\
  forall i, (i < length ss)%nat -> pv (nth i ss ([], [])) (nth i ps (PNum 0)) (parr (nth i qs dzero)).
(** a value: a Tensor of the right axes, or (if [col]) the number 0 standing for
    an array of zeros with all axes of size 1 *)
Definition unit_axes (out : pst) : Prop := Forall (fun s => s = 1%nat) (flat out).
Definition vrel (col : bool) (out : pst) (v : pval) (q : dt) : Prop :=
  (col = true /\ unit_axes out /\ zval v /\ forall i, In i (indices (flat out)) -> parr q i = 0) \/
  (exists t, v = PT t /\ pv out (PT t) (parr q)).
(** all diagonals run along features in [mf] *)
Definition Qm (mf : list nat) : mcond := fun a b => forall f, In f (targets a) \/ In f (targets b) -> In f mf.
Definition gsh (s out : pst) : shape4 := SH (flat s) [] (fst out) (snd out).
Definition hsh (s s' out : pst) : shape4 := SH (flat s) (flat s') (fst out) (snd out).

Record refines (ss : list pst) (out : pst) (D : list dt -> Prop) (mf : list nat) (dep : nat -> bool) (col : bool)
    (tf : tfun) (sf : sfun) : Prop := mkRf {
  rf_call : forall ps qs, prms ss ps qs -> D qs -> exists v, t_call tf ps = Ok v /\ vrel col out v (val (f_call sf qs));
  rf_grad : forall ps qs i, prms ss ps qs -> D qs -> (i < length ss)%nat ->
    exists v, t_grad tf ps i = Ok v /\ rep (dep i) (Qm mf) (gsh (nth i ss ([], [])) out) v (get (val (f_grad sf qs i)));
  rf_hess : forall ps qs i j, prms ss ps qs -> D qs -> (i < length ss)%nat -> (j <= i)%nat ->
    exists v, t_hess tf ps i j = Ok v /\ rep false (Qm mf) (hsh (nth i ss ([], [])) (nth j ss ([], [])) out) v (get (val (f_hess sf qs i j)));
  rf_ng : t_nullg tf = f_nullg sf;
  rf_nh : t_nullh tf = f_nullh sf;
  rf_col : col = true -> unit_axes out;
  rf_pos : posl (flat out);
  rf_mf : forall f, In f mf -> (f < length (fst out))%nat;
  rf_dng : t_nullg tf = true -> forall i, dep i = false }.

(** *** small facts *)
Lemma prms_1 s ps qs : prms (s :: nil) ps qs -> exists p q, ps = [p] /\ qs = [q] /\ has_st q s /\ pv s p (parr q).
Proof.
  intros (L & H & P). destruct ps as [|p [|p' ps]]; try discriminate. destruct (FuncPrim.sts_1 _ _ H) as (q & -> & Hq). exists p, q. repeat split; auto; try apply Hq. apply (P 0%nat). cbn; lia.
Qed.
Lemma pndim_1 s p q : pv s p q -> pndim [p] 0 = Ok (length (flat s)).
Proof. intros H. destruct (pv_asarray s p q H) as (a & Ea & Sa & _). unfold pndim, rnth. cbn [nth_error rbind]. rewrite Ea. cbn [rbind]. unfold ndim. now rewrite Sa. Qed.
Lemma rep_PT (Q : mcond) S t F : xfits S t -> Q (xm t) (ym t) -> tabeq S (get (den t)) F -> rep (nonempty (SN S ++ SD S)) Q S (PT t) F.
Proof.
  intros X q V. destruct (SN S ++ SD S) as [|s0 sh0] eqn:E; cbn [nonempty].
  - destruct (is_zero0 (tv t)) eqn:Z.
    + left. split; [reflexivity|]. unfold is_zero0 in Z. destruct (shp (tv t)) as [|s1 sh1] eqn:Es; [|discriminate]. destruct (Req_EM_T (el (tv t) []) 0) as [Ez|]; [|discriminate].
      destruct (rank0_groups t (xf_wf _ _ X) Es) as (A1 & A2 & A3 & A4 & A5 & A6). split; [exists t; repeat split; auto|].
      intros x y n d Hi. rewrite <- (V x y n d Hi). rewrite (rank0_get t) by (auto; apply X). exact Ez.
    + right. split; [split; [split; auto|exact Z]|exact V].
  - right. split; [split; [split; auto|]|exact V]. apply rank_not_zero. apply (xfits_rank S t X). unfold nonscalar. rewrite E. discriminate.
Qed.
Lemma Qm_idm k : Qm (seq 0 k) (idm k) [].
Proof. intros f [H|[]]. now rewrite targets_idm in H. Qed.
Lemma Qm_idm2 k : Qm (seq 0 k) (idm k) (idm k).
Proof. intros f [H|H]; now rewrite targets_idm in H. Qed.
Lemma Qm_nil mf : Qm mf [] [].
Proof. intros f [[]|[]]. Qed.
Lemma eqb_idx_clamp a x n : In x (indices a) -> In n (indices a) -> eqb_idx (clamp a x) (clamp a n) = eqb_idx x n.
Proof. intros H1 H2. now rewrite !clamp_in by auto. Qed.

(** *** functions of one parameter whose derivatives are diagonal *)
Record dform (s : pst) (E : list nat) (D : list dt -> Prop) (tf : tfun) (sf : sfun) : Prop := mkDf {
  df_call : forall ps qs, prms (s :: nil) ps qs -> D qs -> exists t, t_call tf ps = Ok (PT t) /\ pv (flat s, E) (PT t) (parr (val (f_call sf qs)));
  df_grad : forall ps qs, prms (s :: nil) ps qs -> D qs -> exists t, t_grad tf ps 0 = Ok (PT t) /\
    xfits (SH (flat s) [] (flat s) E) t /\ xm t = idm (length (flat s)) /\ ym t = [] /\
    tabeq (SH (flat s) [] (flat s) E) (get (den t)) (get (val (f_grad sf qs 0)));
  df_hess : forall ps qs, prms (s :: nil) ps qs -> D qs -> exists t, t_hess tf ps 0 0 = Ok (PT t) /\
    xfits (SH (flat s) (flat s) (flat s) E) t /\ xm t = idm (length (flat s)) /\ ym t = idm (length (flat s)) /\
    tabeq (SH (flat s) (flat s) (flat s) E) (get (den t)) (get (val (f_hess sf qs 0 0)));
  df_ng : t_nullg tf = false /\ f_nullg sf = false;
  df_nh : t_nullh tf = false /\ f_nullh sf = false;
  df_ps : posl (flat s); df_pe : posl E }.

Theorem dform_refines s E D tf sf : dform s E D tf sf ->
  refines (s :: nil) (flat s, E) D (seq 0 (length (flat s))) (fun _ => nonempty (flat s ++ E)) false tf sf.
Proof.
  intros [Hc Hg Hh Hng Hnh Ps Pe]. constructor.
  - intros ps qs P d. destruct (Hc ps qs P d) as (t & Et & Pt). exists (PT t). split; [exact Et|]. right. exists t. auto.
  - intros ps qs [|i] P d Hi; [|cbn in Hi; lia]. destruct (Hg ps qs P d) as (t & Et & X & Mx & My & V). exists (PT t). split; [exact Et|].
    apply (rep_PT _ (gsh s (flat s, E)) t); auto. rewrite Mx, My. apply Qm_idm.
  - intros ps qs [|i] [|j] P d Hi Hj; try (cbn in Hi; lia). destruct (Hh ps qs P d) as (t & Et & X & Mx & My & V). exists (PT t). split; [exact Et|].
    eapply rep_false. apply (rep_PT _ (hsh s s (flat s, E)) t); auto. rewrite Mx, My. apply Qm_idm2.
  - destruct Hng; congruence. - destruct Hnh; congruence. - discriminate.
  - now apply Forall_app.
  - intros f Hf. apply in_seq in Hf. cbn [fst]. lia.
  - intros H. destruct Hng; congruence.
Qed.

Lemma grad_tensor_diag s p q v a E h : pv s p q -> posl (flat s) -> posl E -> asarray v = Ok a -> shp a = flat s ++ E -> (forall i, In i (indices (flat s ++ E)) -> el a i = h i) ->
  exists t, grad_tensor v [p] 0 MTrue (length E) = Ok t /\ xfits (SH (flat s) [] (flat s) E) t /\ xm t = idm (length (flat s)) /\ ym t = [] /\
    shp (tv t) = repeat 1%nat (length (flat s)) ++ flat s ++ E /\
    forall x n d, In x (indices (flat s)) -> In n (indices (flat s)) -> In d (indices E) -> get (den t) x [] n d = if eqb_idx x n then h (n ++ d) else 0.
Proof.
  intros Hp Ps Pe Ea Sa Va. destruct (diag_grad_xfits (flat s) E a h Ps Pe Sa Va) as (v' & t & Ev & Et & R). exists t. split; [|exact R].
  unfold grad_tensor. rewrite (pndim_1 s p q Hp). cbn [rbind amap_of]. rewrite Ea. cbn [rbind]. rewrite Ev. exact Et.
Qed.
Lemma hess_tensor_diag s p q v a E h : pv s p q -> posl (flat s) -> posl E -> asarray v = Ok a -> shp a = flat s ++ E -> (forall i, In i (indices (flat s ++ E)) -> el a i = h i) ->
  exists t, hess_tensor v [p] 0 0 MTrue MTrue (length E) = Ok t /\ xfits (SH (flat s) (flat s) (flat s) E) t /\ xm t = idm (length (flat s)) /\ ym t = idm (length (flat s)) /\
    forall x y n d, In x (indices (flat s)) -> In y (indices (flat s)) -> In n (indices (flat s)) -> In d (indices E) -> get (den t) x y n d = if eqb_idx x n then if eqb_idx y n then h (n ++ d) else 0 else 0.
Proof.
  intros Hp Ps Pe Ea Sa Va. destruct (diag_hess_xfits (flat s) E a h Ps Pe Sa Va) as (v' & t & Ev & Et & R1 & R2 & R3 & _ & R4). exists t. split; [|auto].
  unfold hess_tensor. rewrite (pndim_1 s p q Hp). unfold msel. cbn [rbind amap_of]. rewrite Ea. cbn [rbind]. rewrite Ev. exact Et.
Qed.

(** entrywise functions of an array without dim axes *)
Lemma entry_dform kd sh (P : R -> Prop) F dF ddF tf : posl sh ->
  (forall p q, pv (sh, []) p q -> (forall i, In i (indices sh) -> P (q i)) -> exists t, t_call tf [p] = Ok (PT t) /\ pv (sh, []) (PT t) (fun i => F (q i))) ->
  (forall p q, pv (sh, []) p q -> (forall i, In i (indices sh) -> P (q i)) -> exists v, t_grad tf [p] 0 = rmap PT (grad_tensor v [p] 0 MTrue 0) /\ pv (sh, []) v (fun i => dF (q i))) ->
  (forall p q, pv (sh, []) p q -> (forall i, In i (indices sh) -> P (q i)) -> exists v, t_hess tf [p] 0 0 = rmap PT (hess_tensor v [p] 0 0 MTrue MTrue 0) /\ pv (sh, []) v (fun i => ddF (q i))) ->
  t_nullg tf = false -> t_nullh tf = false ->
  dform (sh, []) [] (fun ps => forall x, In x (indices (flat (sh, []))) -> P (parr (nth 0 ps dzero) x)) tf (s_entrywise kd false F dF ddF).
Proof.
  intros Psh Hc Hg Hh Ng Nh. assert (Fl : flat (sh, []) = sh) by (unfold flat; apply app_nil_r). rewrite !Fl.
  assert (KD : FuncPrim.kd_ok kd (sh, [])) by (right; reflexivity).
  constructor; rewrite ?Fl; auto; try constructor.
  - intros ps qs Pp d. destruct (prms_1 _ _ _ Pp) as (p & q & -> & -> & Hq & Pv). cbn [nth] in d. destruct (Hc p (parr q) Pv d) as (t & Et & Pt). exists t. split; [exact Et|].
    eapply pv_ext; [|exact Pt]. intros i Hi. unfold s_entrywise, prim. cbn [f_call par rnth nth_error rbind val]. rewrite (FuncCompose.parr_get (ufun F q) (sh, []) i); [|destruct Hq as (? & ? & ? & ?); repeat split; assumption|exact Hi].
    rewrite (FuncPrim.get_ufun (sh, []) F q) by exact Hq. now rewrite <- (FuncCompose.parr_get q (sh, []) i Hq Hi).
  - intros ps qs Pp d. destruct (prms_1 _ _ _ Pp) as (p & q & -> & -> & Hq & Pv). cbn [nth] in d. destruct (Hg p (parr q) Pv d) as (v & Et & Pt).
    destruct (pv_asarray _ _ _ Pt) as (a & Ea & Sa & Va). rewrite Fl in Sa, Va.
    destruct (grad_tensor_diag (sh, []) p (parr q) v a [] (fun i => dF (parr q i)) Pv) as (t & Eg & X & Mx & My & _ & V); rewrite ?Fl, ?app_nil_r; auto; [constructor|].
    rewrite Fl in X, Mx, V. cbn [length] in Eg. exists t. rewrite Et, Eg. split; [reflexivity|]. split; [exact X|]. split; [exact Mx|]. split; [exact My|].
    intros x y n d' (I1 & I2 & I3 & I4). cbn [SX SY SN SD] in *. destruct I2 as [<-|[]]. rewrite (V x n d' I1 I3 I4). destruct I4 as [<-|[]]. rewrite app_nil_r.
    unfold s_entrywise, prim. cbn [f_grad par rnth nth_error rbind val]. rewrite (FuncPrim.get_diag_grad kd (sh, []) KD) by exact Hq. rewrite Fl. cbn [fst snd clamp]. rewrite !app_nil_r, !clamp_in by auto. reflexivity.
  - intros ps qs Pp d. destruct (prms_1 _ _ _ Pp) as (p & q & -> & -> & Hq & Pv). cbn [nth] in d. destruct (Hh p (parr q) Pv d) as (v & Et & Pt).
    destruct (pv_asarray _ _ _ Pt) as (a & Ea & Sa & Va). rewrite Fl in Sa, Va.
    destruct (hess_tensor_diag (sh, []) p (parr q) v a [] (fun i => ddF (parr q i)) Pv) as (t & Eg & X & Mx & My & V); rewrite ?Fl, ?app_nil_r; auto; [constructor|].
    rewrite Fl in X, Mx, My, V. cbn [length] in Eg. exists t. rewrite Et, Eg. split; [reflexivity|]. split; [exact X|]. split; [exact Mx|]. split; [exact My|].
    intros x y n d' (I1 & I2 & I3 & I4). cbn [SX SY SN SD] in *. rewrite (V x y n d' I1 I2 I3 I4). destruct I4 as [<-|[]]. rewrite app_nil_r.
    unfold s_entrywise, prim. cbn [f_hess par rnth nth_error rbind val]. rewrite (FuncPrim.get_diag_hess kd (sh, []) KD) by exact Hq. rewrite Fl. cbn [fst snd clamp]. rewrite !app_nil_r, !clamp_in by auto. reflexivity.
Qed.
End ex.
