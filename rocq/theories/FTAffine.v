(** Affine functions at the tensor level refine the dense ones. *)
From Verif Require Import Prelude DenseModel AnalyticSpec DenseProofs NDArray NDProofs TensorModel TensorSpec TensorSpecOps TensorLemmas TensorBasic TensorSum TensorSumMain TensorBin TensorArith TensorShape TensorExpand TensorGeneric TensorGSum TensorDotCore TensorDot TensorUfunc TensorUfuncP FuncModel FuncSpec FTModel FTRep FTRep2 FTRep3 FTVal FTDiag FTRefine FTPrim.
From Verif Require FuncPrim FuncCompose FuncWrapP FuncLemmas FuncAffine.
From Coq Require Import Reals Lra.
Import List ListNotations.
Open Scope R_scope.
Section ex.
Context {ex : exdims}.

Lemma has_st_parr p q s i : has_st p s -> has_st q s -> In i (indices (flat s)) ->
  (forall n d, In n (indices (fst s)) -> In d (indices (snd s)) -> get p [] [] n d = get q [] [] n d) -> parr p i = parr q i.
Proof.
  intros Hp Hq Hi H. rewrite (FuncCompose.parr_get p s i Hp Hi), (FuncCompose.parr_get q s i Hq Hi). apply in_indices_app in Hi as [H1 H2]. now apply H.
Qed.
Lemma parr_at q s n d : has_st q s -> In n (indices (fst s)) -> In d (indices (snd s)) -> parr q (n ++ d) = get q [] [] n d.
Proof.
  intros H Hn Hd. rewrite (FuncCompose.parr_get q s (n ++ d) H) by (now apply in_indices_app2).
  rewrite firstn_app, skipn_app, <- (indices_length _ _ Hn), firstn_all, skipn_all, Nat.sub_diag. cbn [firstn skipn app]. now rewrite app_nil_r.
Qed.
Definition noQ : mcond := fun _ _ => False.
Lemma rep_noQ b S v F : rep b noQ S v F -> zval v.
Proof.
  intros [(_ & Z & _)|[H _]]; [exact Z|]. exfalso. destruct v as [c|a|t|g]; cbn [pf] in H; auto.
  - destruct H as [[_ []] _].
  - destruct H as (Ne & Fa & _). destruct (els g) as [|e es]; [now apply Ne|]. inversion Fa as [|? ? (t & _ & _ & []) _].
Qed.
Lemma zval_scale a v : a <> 0 -> zval v -> exists u, py OMul (PNum a) v = Ok u /\ zval u.
Proof.
  intros Ha Z. destruct (rscale false noQ (SH [] [] [] []) v (fun _ _ _ _ => 0) a Ha) as (u & Eu & Ru); [apply rep_zero; [exact Z|intros x y n d _; reflexivity]|].
  exists u. split; [exact Eu|]. now apply rep_noQ in Ru.
Qed.
Lemma kind2 p : kind p = 2%nat -> exists t, p = PT t.
Proof. destruct p; try discriminate. eauto. Qed.
Lemma vrel_scale col out v q a : posl (flat out) -> a <> 0 -> has_st q out -> vrel col out v q ->
  exists u, py OMul (PNum a) v = Ok u /\ vrel col out u (dscal a q).
Proof.
  intros P Ha Hq [(Hc & Hu & Z & V)|(t & -> & Pt)].
  - destruct (zval_scale a v Ha Z) as (u & Eu & Zu). exists u. split; [exact Eu|]. left. refine (conj Hc (conj Hu (conj Zu _))).
    intros i Hi. rewrite (FuncCompose.parr_get (dscal a q) out i Hq Hi), get_dscal, <- (FuncCompose.parr_get q out i Hq Hi), V by exact Hi. ring.
  - destruct (pv_num OMul a out (PT t) (parr q) P (fun _ => Ha) ltac:(discriminate) Pt) as (p & Ep & Pp & Kp). destruct (kind2 p Kp) as (r & ->). exists (PT r). split; [exact Ep|].
    right. exists r. split; [reflexivity|]. eapply pv_ext; [|exact Pp]. intros i Hi. cbn [rop].
    now rewrite (FuncCompose.parr_get (dscal a q) out i Hq Hi), get_dscal, <- (FuncCompose.parr_get q out i Hq Hi).
Qed.
Lemma vrel_shift col out v q b : posl (flat out) -> b = 0 \/ col = false -> has_st q out -> vrel col out v q ->
  exists u, py OAdd v (PNum b) = Ok u /\ vrel col out u (dshift q b).
Proof.
  intros P Hb Hq [(Hc & Hu & Z & V)|(t & -> & Pt)].
  - destruct Hb as [-> | Hb]; [|congruence]. exists v. split.
    + apply (radd0_r false noQ (SH [] [] [] []) v (fun _ _ _ _ => 0)). apply rep_zero; [exact Z|intros x y n d _; reflexivity].
    + left. refine (conj Hc (conj Hu (conj Z _))). intros i Hi. rewrite (FuncCompose.parr_get (dshift q 0) out i Hq Hi), get_dshift, <- (FuncCompose.parr_get q out i Hq Hi), V by exact Hi. ring.
  - destruct (pv_shift out (PT t) (parr q) b P Pt) as (p & Ep & Pp & Kp). destruct (kind2 p Kp) as (r & ->). exists (PT r). split; [exact Ep|].
    right. exists r. split; [reflexivity|]. eapply pv_ext; [|exact Pp]. intros i Hi. cbv beta.
    now rewrite (FuncCompose.parr_get (dshift q b) out i Hq Hi), get_dshift, <- (FuncCompose.parr_get q out i Hq Hi).
Qed.
Lemma vrel_ext col out v q q' : (forall i, In i (indices (flat out)) -> parr q i = parr q' i) -> vrel col out v q -> vrel col out v q'.
Proof.
  intros H [(Hc & Hu & Z & V)|(t & -> & Pt)].
  - left. refine (conj Hc (conj Hu (conj Z _))). intros i Hi. rewrite <- H by exact Hi. now apply V.
  - right. exists t. split; [reflexivity|]. now apply (pv_ext out (PT t) (parr q)).
Qed.

Theorem affine_refines ss out D mf dep col tf sf a b : wellformed ss out sf -> a <> 0 -> b = 0 \/ col = false ->
  refines ss out D mf dep col tf sf -> refines ss out D mf dep col (t_affine tf a b) (s_affine sf a b).
Proof.
  intros W Ha Hb R. pose proof (rf_pos _ _ _ _ _ _ _ _ R) as P. constructor.
  - intros ps qs Pp d. destruct (rf_call _ _ _ _ _ _ _ _ R ps qs Pp d) as (v & Ev & V). cbn [t_affine t_call s_affine f_call]. rewrite Ev. cbn [rbind].
    pose proof (proj1 (proj2 Pp)) as Hs. rewrite (FuncAffine.call_ok W qs Hs). pose proof (FuncAffine.call_st W qs Hs) as Hq. cbn [rbind val].
    destruct (vrel_scale col out v _ a P Ha Hq V) as (u & Eu & Vu). rewrite Eu. cbn [rbind]. exact (vrel_shift col out u (dscal a (val (f_call sf qs))) b P Hb Hq Vu).
  - intros ps qs i Pp d Hi. cbn [t_affine t_grad s_affine f_grad]. rewrite <- (rf_ng _ _ _ _ _ _ _ _ R). destruct (t_nullg tf) eqn:N.
    + exists tzero. split; [reflexivity|]. rewrite (rf_dng _ _ _ _ _ _ _ _ R N). apply rep_dzero.
    + destruct (rf_grad _ _ _ _ _ _ _ _ R ps qs i Pp d Hi) as (v & Ev & V). rewrite Ev. cbn [rbind]. destruct (rscale _ _ _ _ _ a Ha V) as (u & Eu & Vu). exists u. split; [exact Eu|].
      rewrite (FuncAffine.grad_ok W qs i (proj1 (proj2 Pp)) Hi). cbn [rbind val]. eapply rep_ext; [exact Vu|]. intros x y n e _. now rewrite get_dscal.
  - intros ps qs i j Pp d Hi Hj. cbn [t_affine t_hess s_affine f_hess]. rewrite <- (rf_nh _ _ _ _ _ _ _ _ R). destruct (t_nullh tf) eqn:N.
    + exists tzero. split; [reflexivity|]. apply rep_dzero.
    + destruct (rf_hess _ _ _ _ _ _ _ _ R ps qs i j Pp d Hi Hj) as (v & Ev & V). rewrite Ev. cbn [rbind]. destruct (rscale _ _ _ _ _ a Ha V) as (u & Eu & Vu). exists u. split; [exact Eu|].
      rewrite (FuncAffine.hess_ok W qs i j (proj1 (proj2 Pp)) Hi Hj). cbn [rbind val]. eapply rep_ext; [exact Vu|]. intros x y n e _. now rewrite get_dscal.
  - exact (rf_ng _ _ _ _ _ _ _ _ R).
  - exact (rf_nh _ _ _ _ _ _ _ _ R).
  - exact (rf_col _ _ _ _ _ _ _ _ R).
  - exact P.
  - exact (rf_mf _ _ _ _ _ _ _ _ R).
  - exact (rf_dng _ _ _ _ _ _ _ _ R).
Qed.
Theorem affine_dform s E D tf sf a b : wellformed (s :: nil) (flat s, E) sf -> a <> 0 -> dform s E D tf sf -> dform s E D (t_affine tf a b) (s_affine sf a b).
Proof.
  intros W Ha F. assert (P : posl (flat (flat s, E))) by (apply Forall_app; split; [exact (df_ps _ _ _ _ _ F)|exact (df_pe _ _ _ _ _ F)]).
  destruct (df_ng _ _ _ _ _ F) as [N1 N2]. destruct (df_nh _ _ _ _ _ F) as [N3 N4]. constructor.
  - intros ps qs Pp d. destruct (df_call _ _ _ _ _ F ps qs Pp d) as (t & Et & Pt). cbn [t_affine t_call s_affine f_call]. rewrite Et. cbn [rbind].
    pose proof (proj1 (proj2 Pp)) as Hs. rewrite (FuncAffine.call_ok W qs Hs). pose proof (FuncAffine.call_st W qs Hs) as Hq. cbn [rbind val].
    destruct (vrel_scale false (flat s, E) (PT t) _ a P Ha Hq) as (u & Eu & Vu); [right; eauto|]. rewrite Eu. cbn [rbind].
    destruct (vrel_shift false (flat s, E) u (dscal a (val (f_call sf qs))) b P (or_intror eq_refl) Hq Vu) as (w & Ew & [(? & _)|(r & -> & Pr)]); [discriminate|]. exists r. auto.
  - intros ps qs Pp d. destruct (df_grad _ _ _ _ _ F ps qs Pp d) as (t & Et & X & Mx & My & V). cbn [t_affine t_grad s_affine f_grad]. rewrite N1, N2, Et. cbn [rbind].
    destruct (xscale _ t a Ha X) as (r & Er & Xr & Mxr & Myr & _ & Vr). unfold py. cbn [tbin reflected tbin1]. rewrite Er. exists r. split; [reflexivity|]. split; [exact Xr|]. split; [congruence|]. split; [congruence|].
    rewrite (FuncAffine.grad_ok W qs 0 (proj1 (proj2 Pp)) ltac:(cbn; lia)). cbn [rbind val]. intros x y n e Hi. rewrite Vr, get_dscal by exact Hi. now rewrite V.
  - intros ps qs Pp d. destruct (df_hess _ _ _ _ _ F ps qs Pp d) as (t & Et & X & Mx & My & V). cbn [t_affine t_hess s_affine f_hess]. rewrite N3, N4, Et. cbn [rbind].
    destruct (xscale _ t a Ha X) as (r & Er & Xr & Mxr & Myr & _ & Vr). unfold py. cbn [tbin reflected tbin1]. rewrite Er. exists r. split; [reflexivity|]. split; [exact Xr|]. split; [congruence|]. split; [congruence|].
    rewrite (FuncAffine.hess_ok W qs 0 0 (proj1 (proj2 Pp)) ltac:(cbn; lia) (le_n 0)). cbn [rbind val]. intros x y n e Hi. rewrite Vr, get_dscal by exact Hi. now rewrite V.
  - split; assumption.
  - split; assumption.
  - exact (df_ps _ _ _ _ _ F).
  - exact (df_pe _ _ _ _ _ F).
Qed.
End ex.
