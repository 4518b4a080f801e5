(** Compose of two functions applied entry by entry, as the outer function of
    another Compose: [Poisson(n) @ Exp() @ foo] is [(Poisson(n) @ Exp()) @ foo]. *)
From Verif Require Import Prelude DenseModel AnalyticSpec DenseProofs NDArray NDProofs TensorModel TensorSpec TensorSpecOps TensorLemmas TensorBasic TensorSum TensorSumMain TensorBin TensorArith TensorShape TensorExpand TensorGeneric TensorGSum TensorDotCore TensorDot TensorUfunc TensorUfuncP FuncModel FuncSpec FTModel FTRep FTRep2 FTRep3 FTVal FTDiag FTRefine FTPrim FTAffine.
From Verif Require FuncPrim FuncCompose FuncWrapP FuncLemmas FuncAffine FuncSum.
From Coq Require Import Reals Lra.
Import List ListNotations.
Open Scope R_scope.
Section ex.
Context {ex : exdims}.

(** a diagonal first derivative, a diagonal second derivative *)
Definition gdiag (K E : list nat) (t : tensor) (F : table) : Prop :=
  xfits (SH K [] K E) t /\ xm t = idm (length K) /\ ym t = [] /\ tabeq (SH K [] K E) (get (den t)) F.
Definition hdiag (K E : list nat) (t : tensor) (F : table) : Prop :=
  xfits (SH K K K E) t /\ xm t = idm (length K) /\ ym t = idm (length K) /\ tabeq (SH K K K E) (get (den t)) F.

(** the contractions, on Tensors *)
Lemma ndrop (K : list nat) t Y : xfits (SH K Y K []) t -> exists r, tdrop t = Ok r /\ xfits (SH K Y K []) r /\ xm r = xm t /\ ym r = ym t /\
  tabeq (SH K Y K []) (get (den r)) (dropT (length K) (get (den t))).
Proof.
  intros X. destruct (xdrop _ t X) as (r & Er & Xr & Mx & My & _ & V). exists r. unfold dropS in Xr, V. cbn [SX SY SN SD] in Xr, V. rewrite app_nil_r in Xr, V. auto.
Qed.
Lemma ngrad (K E : list nat) s g Fs G : posl K -> K <> [] -> gdiag K E s Fs -> gdiag K [] g G ->
  exists d r, tdrop g = Ok d /\ tdot_left s d = Ok r /\ gdiag K E r (dlT K Fs (dropT (length K) G)).
Proof.
  intros PK NK (Xs & Ms & Ys & Vs) (Xg & Mg & Yg & Vg). destruct (ndrop K g [] Xg) as (d & Ed & Xd & Md & Yd & Vd).
  destruct (xdotl K [] K E s d PK NK Xs Ms Xd) as (r & Er & Xr & Mr & Yr & Vr). exists d, r. split; [exact Ed|]. split; [exact Er|]. split; [exact Xr|]. split; [congruence|]. split; [congruence|].
  intros x y n e Hi. rewrite (Vr x y n e Hi). destruct Hi as (I1 & I2 & I3 & I4). cbn [SX SY SN SD] in *. unfold dlT. apply Rsum_ext. intros k Hk. rewrite (Vs k y n e) by (repeat split; auto). f_equal.
  assert (A : at_shape (SH K [] K []) x [] k []) by (repeat split; cbn; auto). rewrite (Vd _ _ _ _ A). unfold dropT. apply Vg.
  pose proof (at_drop (SH K [] K []) x [] k []) as Q. unfold dropS in Q. cbn [SX SY SN SD] in Q. rewrite app_nil_r in Q. now apply Q.
Qed.
Lemma nquad (K E : list nat) h g H G : posl K -> K <> [] -> hdiag K E h H -> gdiag K [] g G ->
  exists d q, tdrop g = Ok d /\ pquad (PT h) (PT d) (PT d) = Ok (PT q) /\ hdiag K E q (qT K H (dropT (length K) G) (dropT (length K) G)).
Proof.
  intros PK NK (Xh & Mh & Nh & Vh) (Xg & Mg & Yg & Vg). destruct (ndrop K g [] Xg) as (d & Ed & Xd & Md & Yd & Vd).
  destruct (xdotl K K K E h d PK NK Xh Mh Xd) as (w1 & E1 & X1 & M1 & Y1 & V1).
  destruct (xtrans _ w1 X1) as (w2 & E2 & X2 & M2 & Y2 & _ & V2). unfold transS in X2, V2. cbn [SX SY SN SD] in X2, V2.
  destruct (xdotl K K K E w2 d PK NK X2 ltac:(congruence) Xd) as (w3 & E3 & X3 & M3 & Y3 & V3).
  destruct (xtrans _ w3 X3) as (q & E4 & X4 & M4 & Y4 & _ & V4). unfold transS in X4, V4. cbn [SX SY SN SD] in X4, V4.
  exists d, q. split; [exact Ed|]. split.
  { unfold pquad. cbn [pdot_left tdot_left_any]. rewrite E1. cbn [rbind rmap ptranspose]. rewrite E2. cbn [rbind rmap pdot_left tdot_left_any]. rewrite E3. cbn [rbind rmap ptranspose]. rewrite E4. reflexivity. }
  split; [exact X4|]. split; [congruence|]. split; [congruence|].
  assert (Gd : forall x k, In x (indices K) -> In k (indices K) -> get (den d) x [] k [] = dropT (length K) G x [] k []).
  { intros x k Hx Hk. assert (A : at_shape (SH K [] K []) x [] k []) by (repeat split; cbn; auto). rewrite (Vd _ _ _ _ A). unfold dropT. apply Vg.
    pose proof (at_drop (SH K [] K []) x [] k []) as Q. unfold dropS in Q. cbn [SX SY SN SD] in Q. rewrite app_nil_r in Q. now apply Q. }
  intros x y n e Hi. pose proof Hi as (I1 & I2 & I3 & I4). cbn [SX SY SN SD] in *. rewrite (V4 x y n e Hi). unfold qT, transT.
  rewrite (V3 y x n e) by (repeat split; auto). unfold dlT. apply Rsum_ext. intros k Hk. rewrite (Gd y k I2 Hk). f_equal.
  rewrite (V2 k x n e) by (repeat split; auto). unfold transT. rewrite (V1 x k n e) by (repeat split; auto). unfold dlT. apply Rsum_ext. intros k' Hk'. rewrite (Gd x k' I1 Hk'). f_equal. apply Vh. repeat split; auto.
Qed.
Lemma nright (K E : list nat) s h Fs H : posl K -> K <> [] -> gdiag K E s Fs -> hdiag K [] h H ->
  exists d r, tdrop h = Ok d /\ tdot_right s d = Ok (PT r) /\ hdiag K E r (drT K Fs (dropT (length K) H)).
Proof.
  intros PK NK (Xs & Ms & Ys & Vs) (Xh & Mh & Nh & Vh). destruct (ndrop K h K Xh) as (d & Ed & Xd & Md & Yd & Vd).
  destruct (xdotr K K K E s d PK NK Xs Ms Xd) as (r & Er & Xr & Mr & Yr & Vr). { apply rank_not_zero. apply (xfits_rank _ _ Xd). now apply nonsc. }
  exists d, r. split; [exact Ed|]. split; [exact Er|]. split; [exact Xr|]. split; [congruence|]. split; [congruence|].
  intros x y n e Hi. rewrite (Vr x y n e Hi). destruct Hi as (I1 & I2 & I3 & I4). cbn [SX SY SN SD] in *. unfold drT. apply Rsum_ext. intros k Hk. rewrite (Vs k [] n e) by (repeat split; cbn; auto). f_equal.
  assert (A : at_shape (SH K K K []) x y k []) by (repeat split; cbn; auto). rewrite (Vd _ _ _ _ A). unfold dropT. apply Vh.
  pose proof (at_drop (SH K K K []) x y k []) as Q. unfold dropS in Q. cbn [SX SY SN SD] in Q. rewrite app_nil_r in Q. now apply Q.
Qed.
Lemma nadd0 (S : shape4) t : nonscalar S -> xfits S t -> exists r, py OAdd tzero (PT t) = Ok (PT r) /\ xfits S r /\ xm r = xm t /\ ym r = ym t /\ tabeq S (get (den r)) (get (den t)).
Proof.
  intros NS X. assert (Z : zval tzero) by (apply zval_tnum). destruct tzero as [| |z|] eqn:Ez; try discriminate Ez. destruct (zero_add S z t) as (r & Er & Xr & Mr & Yr & _ & V); auto. { exact (xfits_rank S t X NS). }
  exists r. split; [exact Er|]. auto.
Qed.
Lemma nadd (S : shape4) s t : spos S -> nonscalar S -> xfits S s -> xfits S t -> xm s = xm t -> ym s = ym t -> exists r, py OAdd (PT s) (PT t) = Ok (PT r) /\ xfits S r /\ xm r = xm s /\ ym r = ym s /\ tabeq S (get (den r)) (fun x y n d => get (den s) x y n d + get (den t) x y n d).
Proof. intros P NS X Y A B. destruct (xadd_same S s t P NS X Y A B) as (r & Er & H). exists r. split; [exact Er|exact H]. Qed.

Section Nest.
Context (s : pst) (E : list nat) (D1 D2 : list dt -> Prop) (f1 f2 : tfun) (sf1 sf2 : sfun).
Notation K := (flat s).
Hypothesis NK : K <> [].
Hypothesis W1 : wellformed ((K, []) :: nil) (flat (K, []), E) sf1.
Hypothesis W2 : wellformed (s :: nil) (K, []) sf2.
Hypothesis F1 : dform (K, []) E D1 f1 sf1.
Hypothesis F2 : dform s [] D2 f2 sf2.
Lemma flat_nil : flat (K, @nil nat) = K.
Proof. unfold flat at 1. cbn [fst snd]. apply app_nil_r. Qed.
Lemma W1' : wellformed ((K, []) :: nil) (K, E) sf1.
Proof. rewrite <- flat_nil at 2. exact W1. Qed.
Lemma WG2 : Forall2 (fun g o => wellformed (s :: nil) o g) (sf2 :: nil) ((K, []) :: nil).
Proof. constructor; [exact W2|constructor]. Qed.
Lemma nest_arg ps qs t : prms (s :: nil) ps qs -> pv (K, []) (PT t) (parr (val (f_call sf2 qs))) -> prms ((K, []) :: nil) [PT t] [val (f_call sf2 qs)].
Proof.
  intros Pp Pt. split; [reflexivity|]. split; [constructor; [exact (FuncAffine.call_st W2 qs (proj1 (proj2 Pp)))|constructor]|]. intros [|i] Hi; [exact Pt|cbn in Hi; lia].
Qed.
(** the tables of the dense composition *)
Lemma nest_gtab ps qs F G : prms (s :: nil) ps qs -> tabeq (SH K [] K E) F (get (val (f_grad sf1 [val (f_call sf2 qs)] 0))) -> G = get (val (f_grad sf2 qs 0)) ->
  tabeq (SH K [] K E) (dlT K F (dropT (length K) G)) (get (val (f_grad (s_compose sf1 [sf2]) qs 0))).
Proof.
  intros Pp HF ->. destruct (FuncCompose.compose_grad_ok (s :: nil) ((K, []) :: nil) (K, E) sf1 [sf2] W1' WG2 qs 0 (proj1 (proj2 Pp)) ltac:(cbn; lia)) as (g' & Eg & _ & Vg). rewrite Eg. cbn [val].
  intros x y n e (I1 & I2 & I3 & I4). cbn [SX SY SN SD] in *. destruct I2 as [<-|[]]. rewrite Vg. unfold FuncCompose.CG. cbn [length seq]. rewrite Rsum_cons, Rsum_nil, Rplus_0_r. cbn [nth]. rewrite flat_nil.
  unfold dlT. apply Rsum_ext. intros k Hk. f_equal. rewrite HF by (repeat split; cbn; auto). reflexivity.
Qed.
Lemma nest_htab ps qs H F G HG : prms (s :: nil) ps qs -> tabeq (SH K K K E) H (get (val (f_hess sf1 [val (f_call sf2 qs)] 0 0))) -> tabeq (SH K [] K E) F (get (val (f_grad sf1 [val (f_call sf2 qs)] 0))) ->
  G = get (val (f_grad sf2 qs 0)) -> HG = get (val (f_hess sf2 qs 0 0)) ->
  tabeq (SH K K K E) (fun x y n d => qT K H (dropT (length K) G) (dropT (length K) G) x y n d + drT K F (dropT (length K) HG) x y n d) (get (val (f_hess (s_compose sf1 [sf2]) qs 0 0))).
Proof.
  intros Pp HH HF -> ->. destruct (FuncCompose.compose_hess_ok (s :: nil) ((K, []) :: nil) (K, E) sf1 [sf2] W1' WG2 qs 0 0 (proj1 (proj2 Pp)) ltac:(cbn; lia) (le_n 0)) as (g' & Eg & _ & Vg). rewrite Eg. cbn [val].
  intros x y n e (I1 & I2 & I3 & I4). cbn [SX SY SN SD] in *. rewrite Vg. unfold FuncCompose.CH. cbn [length seq]. rewrite !Rsum_cons, !Rsum_nil, !Rplus_0_r. cbn [nth]. rewrite !flat_nil.
  f_equal.
  - unfold qT, transT, dlT. apply Rsum_ext. intros k Hk. f_equal. apply Rsum_ext. intros k' Hk'. f_equal. rewrite HH by (repeat split; cbn; auto). reflexivity.
  - unfold drT. apply Rsum_ext. intros k Hk. rewrite HF by (repeat split; cbn; auto). reflexivity.
Qed.
Theorem nest_dform : dform s E (fun qs => D1 [val (f_call sf2 qs)] /\ D2 qs) (t_compose f1 [f2]) (s_compose sf1 [sf2]).
Proof.
  destruct F1 as [A1 A2 A3 [N1 N2] [N3 N4] A6 PE]. destruct F2 as [B1 B2 B3 _ _ PK _]. rewrite flat_nil in A1, A2, A3.
  constructor; auto.
  - intros ps qs Pp [d1 d2]. destruct (B1 ps qs Pp d2) as (v & Ev & Pv). pose proof (nest_arg ps qs v Pp Pv) as Pa. destruct (A1 _ _ Pa d1) as (t & Et & Pt). exists t. cbn [t_compose t_call]. unfold tcompose_call. cbn [rmapM]. rewrite Ev. cbn [rbind].
    split; [exact Et|]. rewrite (FuncCompose.compose_call_ok (s :: nil) ((K, []) :: nil) (K, E) sf1 [sf2] W1' WG2 qs (proj1 (proj2 Pp))). exact Pt.
  - intros ps qs Pp [d1 d2]. destruct (B1 ps qs Pp d2) as (v & Ev & Pv). pose proof (nest_arg ps qs v Pp Pv) as Pa. destruct (A2 _ _ Pa d1) as (t & Et & Gt). destruct (B2 ps qs Pp d2) as (g & Eg & Gg).
    destruct (ngrad K E t g _ _ PK NK Gt Gg) as (dd & r & Ed & Er & Xr & Mr & Yr & Vr). exists r. cbn [t_compose t_grad]. rewrite N1. unfold tcompose_grad. cbn [rmapM]. rewrite Ev. cbn [rbind enum length seq combine rmapM]. rewrite Et. cbn [rbind]. rewrite Eg. cbn [rbind pdrop]. rewrite Ed. cbn [rmap rbind pdot_left tdot_left_any]. rewrite Er. cbn [rmap rbind]. unfold pysum. cbn [ofold].
    split. { unfold py. cbn [direct reflected]. unfold tbin. cbn [tbin1]. rewrite tadd_num0. reflexivity. }
    split; [exact Xr|]. split; [exact Mr|]. split; [exact Yr|]. intros x y n e Hi. rewrite (Vr x y n e Hi). apply (nest_gtab ps qs _ _ Pp); auto. intros ? ? ? ? _. reflexivity.
  - intros ps qs Pp [d1 d2]. destruct (B1 ps qs Pp d2) as (v & Ev & Pv). pose proof (nest_arg ps qs v Pp Pv) as Pa. destruct (A2 _ _ Pa d1) as (t & Et & Gt). destruct (A3 _ _ Pa d1) as (h & Eh & Hh). destruct (B2 ps qs Pp d2) as (g & Eg & Gg). destruct (B3 ps qs Pp d2) as (hg & Ehg & Hg).
    destruct (nquad K E h g _ _ PK NK Hh Gg) as (dd & q & Ed & Eq & Xq & Mq & Yq & Vq). destruct (nright K E t hg _ _ PK NK Gt Hg) as (hd & r & Ehd & Er & Xr & Mr & Yr & Vr).
    assert (SP : spos (SH K K K E)) by (repeat split; assumption). pose proof (nonsc K K K E NK) as NS.
    destruct (nadd0 _ q NS Xq) as (q1 & Eq1 & Xq1 & Mq1 & Yq1 & Vq1). destruct (nadd _ q1 r SP NS Xq1 Xr) as (w & Ew & Xw & Mw & Yw & Vw); [congruence|congruence|].
    exists w. cbn [t_compose t_hess]. rewrite N1, N3. unfold tcompose_hess. cbn [rmapM]. rewrite Ev. cbn [rbind rmapM]. rewrite Eg. cbn [rbind pdrop]. rewrite Ed. cbn [rmap rbind Nat.eqb enum length seq combine ofold Nat.ltb Nat.leb]. rewrite Eh. cbn [rbind]. unfold rnth. cbn [nth_error rbind]. rewrite Eq. cbn [rbind]. rewrite Eq1. cbn [rbind]. rewrite Et. cbn [rbind]. rewrite Ehg. cbn [rbind pdrop]. rewrite Ehd. cbn [rmap rbind pdot_right tdot_right_any]. rewrite Er. cbn [rbind]. rewrite Ew. cbn [rbind].
    split; [reflexivity|]. split; [exact Xw|]. split; [congruence|]. split; [congruence|]. intros x y n e Hi. rewrite (Vw x y n e Hi), (Vq1 x y n e Hi), (Vq x y n e Hi), (Vr x y n e Hi).
    apply (nest_htab ps qs _ _ _ _ Pp (fun _ _ _ _ _ => eq_refl) (fun _ _ _ _ _ => eq_refl) eq_refl eq_refl). exact Hi.
Qed.
End Nest.
End ex.
