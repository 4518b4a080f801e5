(** The primitive functions refine their dense versions. *)
From Verif Require Import Prelude DenseModel AnalyticSpec DenseProofs NDArray NDProofs TensorModel TensorSpec TensorSpecOps TensorLemmas TensorBasic TensorSum TensorSumMain TensorBin TensorArith TensorShape TensorExpand TensorGeneric TensorGSum TensorDotCore TensorDot TensorUfunc TensorUfuncP FuncModel FuncSpec FTModel FTRep FTRep2 FTRep3 FTVal FTDiag FTRefine.
From Verif Require FuncPrim FuncCompose FuncWrapP FuncLemmas.
From Coq Require Import Reals Lra.
Import List ListNotations.
Open Scope R_scope.
Section ex.
Context {ex : exdims}.

Definition anyD : list dt -> Prop := fun _ => True.
Lemma dform_domain s E (D D' : list dt -> Prop) tf sf : (forall ps, D' ps -> D ps) -> dform s E D tf sf -> dform s E D' tf sf.
Proof. intros H [Hc Hg Hh A B C F]. constructor; auto. Qed.

Lemma Exp_dform sh : posl sh -> dform (sh, []) [] anyD t_Exp s_Exp.
Proof.
  intros Psh. assert (Pf : posl (flat (sh, []))) by (unfold flat; cbn; now rewrite app_nil_r).
  assert (ET : forall p q, pv (sh, []) p q -> exists t, exp_tensor [p] = Ok t /\ pv (sh, []) (PT t) (fun i => exp (q i)) /\ dm t = 0%nat).
  { intros p q H. destruct (pv_map _ _ _ exp H) as (p' & E1 & H1 & _). destruct (pv_tensor _ _ _ Pf H1) as (t & Et & Pt & Dt). exists t. unfold exp_tensor, rnth. cbn [nth_error rbind]. rewrite E1. cbn [rbind]. auto. }
  apply (dform_domain _ _ (fun ps => forall x, In x (indices (flat (sh, []))) -> True)); [auto|].
  apply (entry_dform true sh (fun _ => True)); auto.
  - intros p q H _. destruct (ET p q H) as (t & Et & Pt & _). exists t. cbn [t_Exp t_call]. rewrite Et. auto.
  - intros p q H _. destruct (ET p q H) as (t & Et & Pt & Dt). exists (PT t). cbn [t_Exp t_grad]. rewrite Et. cbn [rbind]. rewrite Dt. auto.
  - intros p q H _. destruct (ET p q H) as (t & Et & Pt & Dt). exists (PT t). cbn [t_Exp t_hess]. rewrite Et. cbn [rbind]. rewrite Dt. auto.
Qed.
Lemma Log_dform sh : posl sh -> dform (sh, []) [] (FuncPrim.positive (sh, [])) t_Log s_Log.
Proof.
  intros Psh. assert (Fl : flat (sh, []) = sh) by (unfold flat; cbn; now rewrite app_nil_r). assert (Pf : posl (flat (sh, []))) by (now rewrite Fl).
  apply (entry_dform true sh (fun v => 0 < v)); auto.
  - intros p q H _. cbn [t_Log t_call]. unfold rnth. cbn [nth_error rbind]. destruct (pv_map _ _ _ ln H) as (p' & E1 & H1 & _). rewrite E1. cbn [rbind].
    destruct (pv_tensor _ _ _ Pf H1) as (t & Et & Pt & Dt). rewrite Et. exists t. auto.
  - intros p q H Pos. cbn [t_Log t_grad]. unfold rnth. cbn [nth_error rbind].
    destruct (pv_num ODiv 1 (sh, []) p q Pf ltac:(intros; lra) ltac:(intros _ i Hi; rewrite Fl in Hi; specialize (Pos i Hi); cbn beta in Pos; lra) H) as (p' & E1 & H1 & _). rewrite E1. cbn [rbind].
    destruct (pv_tensor _ _ _ Pf H1) as (t & Et & Pt & Dt). rewrite Et. cbn [rbind]. exists (PT t). rewrite Dt. auto.
  - intros p q H Pos. cbn [t_Log t_hess]. unfold rnth. cbn [nth_error rbind]. destruct (pv_map _ _ _ (fun v => v * v) H) as (p0 & E0 & H0 & _). rewrite E0. cbn [rbind].
    destruct (pv_num ODiv (-1) (sh, []) p0 (fun i => q i * q i) Pf ltac:(intros; lra) ltac:(intros _ i Hi; rewrite Fl in Hi; specialize (Pos i Hi); cbn beta in Pos; cbv beta; nra) H0) as (p' & E1 & H1 & _). rewrite E1. cbn [rbind].
    destruct (pv_tensor _ _ _ Pf H1) as (t & Et & Pt & Dt). rewrite Et. cbn [rbind]. exists (PT t). rewrite Dt. auto.
Qed.
Lemma Logistic_dform sh : posl sh -> dform (sh, []) [] anyD t_Logistic s_Logistic.
Proof.
  intros Psh. assert (Fl : flat (sh, []) = sh) by (unfold flat; cbn; now rewrite app_nil_r). assert (Pf : posl (flat (sh, []))) by (now rewrite Fl).
  assert (L1 : forall f q, pv (sh, []) f q -> exists v, logis1 f = Ok v /\ pv (sh, []) v (fun i => q i * (1 - q i)) /\ kind v = kind f).
  { intros f q H. unfold logis1. destruct (pv_num OSub 1 _ _ _ Pf ltac:(intros [?|?]; discriminate) ltac:(discriminate) H) as (a & Ea & Ha & Ka). rewrite Ea. cbn [rbind].
    destruct (pv_bin OMul _ f a q _ (or_introl eq_refl) Pf (eq_sym Ka) ltac:(discriminate) H Ha) as (v & Ev & Hv & Kv). exists v. auto. }
  apply (dform_domain _ _ (fun ps => forall x, In x (indices (flat (sh, []))) -> True)); [auto|].
  apply (entry_dform false sh (fun _ => True)); auto; intros p q H _; cbn [t_Logistic t_call t_grad t_hess]; unfold rnth; cbn [nth_error rbind];
    destruct (pv_map _ _ _ expit H) as (f & E1 & H1 & _); rewrite E1; cbn [rbind].
  - destruct (pv_tensor _ _ _ Pf H1) as (t & Et & Pt & Dt). rewrite Et. exists t. auto.
  - destruct (L1 f _ H1) as (v & Ev & Hv & _). rewrite Ev. cbn [rbind]. exists v. auto.
  - unfold logis2. destruct (L1 f _ H1) as (a & Ea & Ha & Ka). rewrite Ea. cbn [rbind].
    destruct (pv_num OMul 2 _ _ _ Pf ltac:(intros; lra) ltac:(discriminate) H1) as (b & Eb & Hb & Kb). rewrite Eb. cbn [rbind].
    destruct (pv_num OSub 1 _ _ _ Pf ltac:(intros [?|?]; discriminate) ltac:(discriminate) Hb) as (c & Ec & Hc & Kc). rewrite Ec. cbn [rbind].
    destruct (pv_bin OMul _ a c _ _ (or_introl eq_refl) Pf ltac:(congruence) ltac:(discriminate) Ha Hc) as (v & Ev & Hv & Kv). rewrite Ev. cbn [rbind]. exists v. auto.
Qed.
Lemma ArcTan_dform sh : posl sh -> dform (sh, []) [] anyD t_ArcTan s_ArcTan.
Proof.
  intros Psh. assert (Fl : flat (sh, []) = sh) by (unfold flat; cbn; now rewrite app_nil_r). assert (Pf : posl (flat (sh, []))) by (now rewrite Fl).
  assert (L1 : forall f q, pv (sh, []) f q -> exists v, onepsq f = Ok v /\ pv (sh, []) v (fun i => 1 + q i * q i) /\ kind v = kind f).
  { intros f q H. unfold onepsq. destruct (pv_bin OMul _ f f q _ (or_introl eq_refl) Pf eq_refl ltac:(discriminate) H H) as (v & Ev & Hv & Kv). rewrite Ev. cbn [rbind].
    destruct (pv_num OAdd 1 _ _ _ Pf ltac:(intros [?|?]; discriminate) ltac:(discriminate) Hv) as (a & Ea & Ha & Ka). exists a. split; [exact Ea|]. split; [exact Ha|congruence]. }
  apply (dform_domain _ _ (fun ps => forall x, In x (indices (flat (sh, []))) -> True)); [auto|].
  apply (entry_dform false sh (fun _ => True)); auto; intros p q H _; cbn [t_ArcTan t_call t_grad t_hess]; unfold rnth; cbn [nth_error rbind].
  - destruct (pv_map _ _ _ atan H) as (f & E1 & H1 & _); rewrite E1; cbn [rbind]. destruct (pv_tensor _ _ _ Pf H1) as (t & Et & Pt & Dt). rewrite Et. exists t. auto.
  - destruct (L1 p _ H) as (a & Ea & Ha & _). rewrite Ea. cbn [rbind].
    destruct (pv_num ODiv 1 (sh, []) a (fun i => 1 + q i * q i) Pf ltac:(intros; lra) ltac:(intros _ i Hi; cbv beta; nra) Ha) as (v & Ev & Hv & _). rewrite Ev. cbn [rbind]. exists v. auto.
  - destruct (pv_num OMul (-2) _ _ _ Pf ltac:(intros; lra) ltac:(discriminate) H) as (u & Eu & Hu & Ku). rewrite Eu. cbn [rbind].
    destruct (L1 p _ H) as (a & Ea & Ha & Ka). rewrite Ea. cbn [rbind]. destruct (pv_sq _ _ _ Ha) as (s & Es & Hs & Ks). rewrite Es. cbn [rbind].
    destruct (pv_bin ODiv (sh, []) u s _ (fun i => (1 + q i * q i) ^ 2) (or_intror eq_refl) Pf ltac:(congruence) ltac:(intros _ i Hi; cbv beta; apply pow_nonzero; nra) Hu Hs) as (v & Ev & Hv & Kv). rewrite Ev. cbn [rbind]. exists v. split; [reflexivity|].
    eapply pv_ext; [|exact Hv]. intros i Hi. cbn [rop]. reflexivity.
Qed.
(** *** functions with a new dim axis *)
Lemma row_arr a K size F h : shp a = K -> (forall i, In i (indices K) -> el a i = h i) ->
  shp (row_array a size F) = K ++ [size] /\ forall n d, In n (indices K) -> In d (indices [size]) -> el (row_array a size F) (n ++ d) = F (h n) (nth 0 d 0%nat).
Proof.
  intros Sa Va. unfold row_array. cbn [shp el]. split; [now rewrite Sa|]. intros n d Hn Hd. assert (L : ndim a = length n) by (unfold ndim; rewrite Sa; symmetry; now apply indices_length).
  rewrite L, firstn_app, Nat.sub_diag, firstn_all. cbn [firstn]. rewrite app_nil_r, Va by auto. f_equal. rewrite app_nth2, Nat.sub_diag by lia. reflexivity.
Qed.
Lemma rows_dform size F dF ddF s : posl (flat s) -> (1 <= size)%nat -> dform s [size] anyD (t_rows size F dF ddF) (s_rows size F dF ddF).
Proof.
  intros Ps Hs. assert (PE : posl [size]) by (constructor; auto; constructor).
  assert (VE : forall G q a, has_st q s -> shp a = flat s -> (forall i, In i (indices (flat s)) -> el a i = parr q i) -> forall i, In i (indices (flat s ++ [size])) ->
     el (row_array a size G) i = G (parr q (firstn (length (flat s)) i)) (nth 0 (skipn (length (flat s)) i) 0%nat)).
  { intros G q a Hq Sa Va i Hi. apply in_indices_app in Hi as [H1 H2]. destruct (row_arr a (flat s) size G (parr q) Sa Va) as [_ V].
    rewrite <- (firstn_skipn (length (flat s)) i) at 1. now apply V. }
  constructor; auto; try reflexivity; try (split; reflexivity).
  - intros ps qs Pp _. destruct (prms_1 _ _ _ Pp) as (p & q & -> & -> & Hq & Pv). cbn [t_rows t_call]. unfold rnth. cbn [nth_error rbind].
    destruct (pv_asarray _ _ _ Pv) as (a & Ea & Sa & Va). rewrite Ea. cbn [rbind]. destruct (row_arr a (flat s) size F (parr q) Sa Va) as [Sr Vr].
    destruct (Tensor_ok (row_array a size F) [] [] (flat s) [size] [] [] 0 0 1) as (t & Et & G & Tv & Mx & My); auto. rewrite Et. exists t. split; [reflexivity|].
    assert (W : wf t) by (apply (wf_of t _ _ _ _ G); [apply Forall_nil|apply Forall_nil|assumption|assumption|rewrite Mx; apply map_ok_nil|rewrite My; apply map_ok_nil]).
    destruct (den_groups _ _ _ _ _ G) as (DX & DY & DN & DD). rewrite Mx in DX. rewrite My in DY. cbn [msizes] in DX, DY.
    cbn [pv fst snd]. refine (conj W (conj DX (conj DY (conj DN (conj DD _))))). intros n d Hn Hd. rewrite get_plain by (auto; congruence). rewrite Tv, Vr by auto.
    unfold s_rows, prim. cbn [f_call par rnth nth_error rbind val].
    rewrite (FuncCompose.parr_get _ (flat s, [size]) (n ++ d)); [|pose proof (FuncPrim.pshape_st s q Hq); repeat split; assumption|unfold flat at 1; cbn [fst snd]; now apply in_indices_app2].
    cbn [fst snd]. rewrite firstn_app, skipn_app, <- (indices_length _ _ Hn), firstn_all, skipn_all, Nat.sub_diag. cbn [firstn skipn app]. rewrite app_nil_r.
    rewrite (FuncPrim.get_row size s q F) by exact Hq. now rewrite !clamp_in by auto.
  - intros ps qs Pp _. destruct (prms_1 _ _ _ Pp) as (p & q & -> & -> & Hq & Pv). cbn [t_rows t_grad]. unfold rnth. cbn [nth_error rbind].
    destruct (pv_asarray _ _ _ Pv) as (a & Ea & Sa & Va). rewrite Ea. cbn [rbind]. destruct (row_arr a (flat s) size dF (parr q) Sa Va) as [Sr Vr].
    destruct (grad_tensor_diag s p (parr q) (PArr (row_array a size dF)) (row_array a size dF) [size] _ Pv Ps PE eq_refl Sr (VE dF q a Hq Sa Va)) as (t & Eg & X & Mx & My & _ & V).
    cbn [length] in Eg. rewrite Eg. exists t. split; [reflexivity|]. split; [exact X|]. split; [exact Mx|]. split; [exact My|].
    intros x y n d (I1 & I2 & I3 & I4). cbn [SX SY SN SD] in *. destruct I2 as [<-|[]]. rewrite (V x n d I1 I3 I4).
    rewrite firstn_app, skipn_app, <- (indices_length _ _ I3), firstn_all, skipn_all, Nat.sub_diag. cbn [firstn skipn app]. rewrite app_nil_r.
    unfold s_rows, prim. cbn [f_grad par rnth nth_error rbind val]. rewrite (FuncPrim.get_row_grad size s q dF) by exact Hq. now rewrite !clamp_in by auto.
  - intros ps qs Pp _. destruct (prms_1 _ _ _ Pp) as (p & q & -> & -> & Hq & Pv). cbn [t_rows t_hess]. unfold rnth. cbn [nth_error rbind].
    destruct (pv_asarray _ _ _ Pv) as (a & Ea & Sa & Va). rewrite Ea. cbn [rbind]. destruct (row_arr a (flat s) size ddF (parr q) Sa Va) as [Sr Vr].
    destruct (hess_tensor_diag s p (parr q) (PArr (row_array a size ddF)) (row_array a size ddF) [size] _ Pv Ps PE eq_refl Sr (VE ddF q a Hq Sa Va)) as (t & Eg & X & Mx & My & V).
    cbn [length] in Eg. rewrite Eg. exists t. split; [reflexivity|]. split; [exact X|]. split; [exact Mx|]. split; [exact My|].
    intros x y n d (I1 & I2 & I3 & I4). cbn [SX SY SN SD] in *. rewrite (V x y n d I1 I2 I3 I4).
    rewrite firstn_app, skipn_app, <- (indices_length _ _ I3), firstn_all, skipn_all, Nat.sub_diag. cbn [firstn skipn app]. rewrite app_nil_r.
    unfold s_rows, prim. cbn [f_hess par rnth nth_error rbind val]. rewrite (FuncPrim.get_row_hess size s q ddF) by exact Hq. now rewrite !clamp_in by auto.
Qed.
(** *** X, Scalar, Vector, Constant *)
Lemma rep_tzero Q S F : tabeq S F (fun _ _ _ _ => 0) -> rep false Q S tzero F.
Proof. intros H. apply rep_zero; [apply zval_tnum|exact H]. Qed.
Lemma rep_dzero Q S : rep false Q S tzero (get dzero).
Proof. apply rep_tzero. intros x y n d _. reflexivity. Qed.
Lemma X_refines sh : posl sh -> refines ((sh, []) :: nil) (sh, []) anyD (seq 0 (length sh)) (fun _ => true) false t_X s_X.
Proof.
  intros Psh. assert (Fl : flat (sh, []) = sh) by (unfold flat; cbn; now rewrite app_nil_r). assert (Pf : posl (flat (sh, []))) by (now rewrite Fl).
  constructor; auto; try reflexivity; try discriminate.
  - intros ps qs Pp _. destruct (prms_1 _ _ _ Pp) as (p & q & -> & -> & Hq & Pv). cbn [t_X t_call]. unfold rnth. cbn [nth_error rbind].
    destruct (pv_tensor _ _ _ Pf Pv) as (t & Et & Pt & _). rewrite Et. exists (PT t). split; [reflexivity|]. right. exists t. split; [reflexivity|]. eapply pv_ext; [|exact Pt].
    intros i Hi. unfold s_X, s_entrywise, prim. cbn [f_call par rnth nth_error rbind val]. rewrite (FuncCompose.parr_get (ufun (fun v => v) q) (sh, []) i); [|destruct Hq as (? & ? & ? & ?); repeat split; assumption|exact Hi].
    rewrite (FuncPrim.get_ufun (sh, []) (fun v => v) q) by exact Hq. now rewrite <- (FuncCompose.parr_get q (sh, []) i Hq Hi).
  - intros ps qs [|i] Pp _ Hi; [|cbn in Hi; lia]. destruct (prms_1 _ _ _ Pp) as (p & q & -> & -> & Hq & Pv). cbn [t_X t_grad nth]. unfold rnth, ones_like. cbn [nth_error rbind].
    destruct (pv_asarray _ _ _ Pv) as (a & Ea & Sa & Va). rewrite Ea. cbn [rbind].
    destruct (grad_tensor_diag (sh, []) p (parr q) (PArr (np_map (fun _ => 1) a)) (np_map (fun _ => 1) a) [] (fun _ => 1) Pv Pf (Forall_nil _) eq_refl) as (t & Eg & X & Mx & My & St & V);
      [now rewrite app_nil_r|reflexivity|]. cbn [length] in Eg. rewrite Eg. exists (PT t). split; [reflexivity|]. unfold gsh. rewrite Fl in *. cbn [fst snd].
    assert (TE : tabeq (SH sh [] sh []) (get (den t)) (get (val (f_grad s_X [q] 0)))).
    { intros x y n d (I1 & I2 & I3 & I4). cbn [SX SY SN SD] in *. destruct I2 as [<-|[]]. rewrite (V x n d I1 I3 I4). unfold s_X, s_entrywise, prim. cbn [f_grad par rnth nth_error rbind val].
      rewrite (FuncPrim.get_diag_grad false (sh, []) (or_intror eq_refl) q (fun _ => 1)) by exact Hq. rewrite Fl. cbn [fst snd clamp]. now rewrite app_nil_r, !clamp_in by auto. }
    right. split; [|exact TE]. split; [split; [exact X|rewrite Mx, My; apply Qm_idm]|].
    unfold is_zero0. rewrite St, app_nil_r. destruct sh as [|s0 sh0]; [|reflexivity]. cbn [length repeat app].
    destruct (Req_EM_T (el (tv t) []) 0) as [E|]; [|reflexivity]. exfalso.
    assert (S0 : shp (tv t) = []) by exact St. pose proof (rank0_get t [] [] [] [] (xf_wf _ _ X) S0) as R0. rewrite E in R0. specialize (V [] [] []). rewrite R0 in V. cbn in V. specialize (V (or_introl eq_refl) (or_introl eq_refl) (or_introl eq_refl)). lra.
  - intros ps qs i j _ _ _ _. exists tzero. split; [reflexivity|]. apply rep_dzero.
  - intros f Hf. apply in_seq in Hf. cbn [fst]. lia.
Qed.
Lemma xfits_num c : xfits (SH [] [] [] []) (tnum c).
Proof.
  apply mkXf; cbn [SX SY SN SD].
  - constructor; cbn; auto; repeat constructor.
  - split; constructor. - split; reflexivity. - constructor. - constructor. - constructor. - apply DR_same. - intros f [[]|[]].
Qed.
Lemma Scalar_refines : refines (([], []) :: nil) ([], []) anyD [] (fun _ => true) false t_Scalar s_Scalar.
Proof.
  constructor; auto; try reflexivity; try discriminate; try constructor.
  - intros ps qs Pp _. destruct (prms_1 _ _ _ Pp) as (p & q & -> & -> & Hq & Pv). cbn [t_Scalar t_call]. unfold rnth. cbn [nth_error rbind].
    destruct (pv_tensor ([], []) p (parr q) (Forall_nil _) Pv) as (t & Et & Pt & _). rewrite Et. exists (PT t). split; [reflexivity|]. right. exists t. split; [reflexivity|]. eapply pv_ext; [|exact Pt].
    intros i Hi. unfold s_Scalar, prim. cbn [f_call par rnth nth_error rbind val]. rewrite (FuncCompose.parr_get (ufun (fun v => v) q) ([], []) i); [|destruct Hq as (? & ? & ? & ?); repeat split; assumption|exact Hi].
    rewrite (FuncPrim.get_ufun ([], []) (fun v => v) q) by exact Hq. now rewrite <- (FuncCompose.parr_get q ([], []) i Hq Hi).
  - intros ps qs [|i] Pp _ Hi; [|cbn in Hi; lia]. exists (PT (tnum 1)). split; [reflexivity|]. right. split.
    + split; [split; [apply xfits_num|apply Qm_nil]|]. unfold is_zero0. cbn. destruct (Req_EM_T 1 0); [lra|reflexivity].
    + intros x y n d (I1 & I2 & I3 & I4). cbn in I1, I2, I3, I4. destruct I1 as [<-|[]], I2 as [<-|[]], I3 as [<-|[]], I4 as [<-|[]]. cbn. ring.
  - intros ps qs i j _ _ _ _. exists tzero. split; [reflexivity|]. apply rep_dzero.
  - intros f [].
Qed.
Lemma arr_pv a : posl (shp a) -> pv (shp a, []) (PT (arrT a)) (el a).
Proof.
  intros P. destruct (pv_tensor (shp a, []) (PArr a) (el a)) as (t & Et & Pt & _); [unfold flat; cbn; now rewrite app_nil_r|cbn; auto|].
  cbn [as_tensor] in Et. rewrite arrT_eq in Et. injection Et as <-. exact Pt.
Qed.
Lemma pv_xfits s t h : pv s (PT t) h -> xfits (SH [] [] (fst s) (snd s)) t /\ xm t = [] /\ ym t = [].
Proof.
  intros (W & Hx & Hy & Hn & Hd & V). destruct (plain_facts t W Hx Hy) as (X0 & Y0 & Mx & My & Sh). cbn [den ns ds] in Hn, Hd. split; [|auto]. constructor; cbn [SX SY SN SD]; auto.
  - now apply plain_feat. - unfold tmapped. rewrite Mx, My, X0, Y0. auto.
  - rewrite Hn. apply le1_refl. - rewrite Hd. apply DR_same. - rewrite Mx, My. intros f [[]|[]].
Qed.
Lemma parr_darr sh V i : In i (indices sh) -> parr (darr sh V) i = V i.
Proof. intros H. unfold parr, darr. cbn [ns at_]. rewrite <- (indices_length _ _ H), firstn_all. unfold get. cbn [ns at_]. now rewrite clamp_in by auto. Qed.
Lemma Vector_refines a : posl (shp a) -> refines (([], []) :: nil) (shp a, []) anyD [] (fun _ => nonempty (shp a)) false (t_Vector a) (s_Vector (shp a) (el a)).
Proof.
  intros P. assert (Fl : flat (shp a, []) = shp a) by (unfold flat; cbn; now rewrite app_nil_r).
  constructor; auto; try reflexivity; try discriminate; try constructor.
  - intros ps qs Pp _. destruct (prms_1 _ _ _ Pp) as (p & q & -> & -> & Hq & Pv). cbn [t_Vector t_call]. unfold rnth. cbn [nth_error rbind].
    destruct (pv_asarray _ _ _ Pv) as (b & Eb & Sb & Vb). rewrite Eb. cbn [rbind]. destruct (np_bin_scalar Rmult b a Sb P) as (r & Er & Sr & Vr). rewrite Er. cbn [rbind]. rewrite arrT_eq. cbn [rmap rbind].
    exists (PT (arrT r)). split; [reflexivity|]. right. exists (arrT r). split; [reflexivity|]. assert (Pr : posl (shp r)) by (now rewrite Sr). pose proof (arr_pv r Pr) as H. rewrite Sr in H.
    eapply pv_ext; [|exact H]. intros i Hi. rewrite Fl in Hi. rewrite Vr by exact Hi. rewrite Vb by (cbn; auto). unfold s_Vector, prim. cbn [f_call par rnth nth_error rbind val]. now rewrite parr_darr.
  - intros ps qs [|i] Pp _ Hi; [|cbn in Hi; lia]. destruct (prms_1 _ _ _ Pp) as (p & q & -> & -> & Hq & Pv). cbn [t_Vector t_grad nth]. unfold grad_tensor. rewrite (pndim_1 _ _ _ Pv). cbn [flat fst snd app length rbind asarray amap_of].
    destruct (index_nw 0 a) as (r & Er & Sr & Vr). cbn [repeat app] in Er, Sr. rewrite Er. cbn [rbind]. rewrite arrT_eq. cbn [rmap rbind]. exists (PT (arrT r)). split; [reflexivity|].
    assert (Pr : posl (shp r)) by (now rewrite Sr). pose proof (arr_pv r Pr) as H. rewrite Sr in H. destruct (pv_xfits _ _ _ H) as (X & Mx & My). cbn [fst snd] in X.
    replace (nonempty (shp a)) with (nonempty (SN (gsh ([], []) (shp a, [])) ++ SD (gsh ([], []) (shp a, [])))) by (cbn [gsh SN SD fst snd]; now rewrite app_nil_r).
    apply rep_PT; [exact X|apply Qm_nil|]. intros x y n d (I1 & I2 & I3 & I4). cbn [gsh SX SY SN SD fst snd flat app] in *. destruct I1 as [<-|[]], I2 as [<-|[]], I4 as [<-|[]].
    destruct H as (W & Hx & Hy & Hn & Hd & V). rewrite V by (auto; now left). rewrite app_nil_r. transitivity (el a n); [exact (Vr [] n eq_refl I3)|].
    unfold s_Vector, prim. cbn [f_grad val]. unfold get, darr. cbn [xs ys ns ds at_ clamp]. now rewrite clamp_in by auto.
  - intros ps qs i j _ _ _ _. exists tzero. split; [reflexivity|]. apply rep_dzero.
  - now rewrite Fl.
  - intros f [].
Qed.
Lemma Constant_refines ss a : posl (shp a) -> refines ss (shp a, []) anyD [] (fun _ => false) false (t_Constant a) (s_Constant (shp a) (el a)).
Proof.
  intros P. assert (Fl : flat (shp a, []) = shp a) by (unfold flat; cbn; now rewrite app_nil_r).
  constructor; auto; try reflexivity; try discriminate; try constructor.
  - intros ps qs Pp _. cbn [t_Constant t_call]. rewrite arrT_eq. exists (PT (arrT a)). split; [reflexivity|]. right. exists (arrT a). split; [reflexivity|].
    eapply pv_ext; [|now apply arr_pv]. intros i Hi. rewrite Fl in Hi. unfold s_Constant, prim. cbn [f_call val]. now rewrite parr_darr.
  - intros ps qs i _ _ _. exists tzero. split; [reflexivity|]. apply rep_dzero.
  - intros ps qs i j _ _ _ _. exists tzero. split; [reflexivity|]. apply rep_dzero.
  - now rewrite Fl.
  - intros f [].
Qed.
End ex.
