(** eval of the composition of two functions applied entry by entry. *)
From Verif Require Import Prelude DenseModel AnalyticSpec DenseProofs NDArray NDProofs TensorModel TensorSpec TensorSpecOps TensorLemmas TensorBasic TensorSum TensorSumMain TensorBin TensorArith TensorShape TensorExpand TensorGeneric TensorGSum TensorDotCore TensorDot TensorUfunc TensorUfuncP FuncModel FuncSpec FTModel FTRep FTRep2 FTRep3 FTVal FTDiag FTRefine FTPrim FTAffine FTNest LTModel ETModel ETRefine.
From Verif Require FuncPrim FuncCompose FuncWrapP FuncLemmas FuncAffine FuncSum.
From Coq Require Import Reals Lra.
Import List ListNotations.
Open Scope R_scope.
Section ex.
Context {ex : exdims}.
Section Nest.
Context (s : pst) (E : list nat) (D1 D2 : list dt -> Prop) (f1 f2 : tobj) (sf1 sf2 : sfun).
Notation K := (flat s).
Hypothesis NK : K <> [].
Hypothesis W1 : wellformed ((K, []) :: nil) (flat (K, []), E) sf1.
Hypothesis W2 : wellformed (s :: nil) (K, []) sf2.
Hypothesis F1 : dform (K, []) E D1 (o_f f1) sf1.
Hypothesis F2 : dform s [] D2 (o_f f2) sf2.
Hypothesis E1 : eform (K, []) E D1 f1 sf1.
Hypothesis E2 : eform s [] D2 f2 sf2.
Theorem nest_eform : eform s E (fun qs => D1 [val (f_call sf2 qs)] /\ D2 qs) (o_compose f1 [f2]) (s_compose sf1 [sf2]).
Proof.
  destruct F1 as [_ _ _ [N1 N2] [N3 N4] A6 PE]. destruct F2 as [_ _ _ _ _ PK _].
  intros ps qs Pp [d1 d2]. destruct (E2 ps qs Pp d2) as (v & g & hg & Ev & Pv & Gg & Hg). pose proof (nest_arg s sf2 W2 ps qs v Pp Pv) as Pa. destruct (E1 _ _ Pa d1) as (t0 & t & h & Ef & Pt & Gt & Hh).
  rewrite (flat_nil s) in Pt, Gt, Hh. change (xfits (SH K [] K E) t /\ xm t = idm (length K) /\ ym t = [] /\ tabeq (SH K [] K E) (get (den t)) (get (val (f_grad sf1 [val (f_call sf2 qs)] 0)))) with (gdiag K E t (get (val (f_grad sf1 [val (f_call sf2 qs)] 0)))) in Gt.
  destruct (ngrad K E t g _ _ PK NK Gt Gg) as (dd & r & Ed & Er & Xr & Mr & Yr & Vr). destruct (nquad K E h g _ _ PK NK Hh Gg) as (dd' & q & Ed' & Eq & Xq & Mq & Yq & Vq). rewrite Ed in Ed'. injection Ed' as <-.
  destruct (nright K E t hg _ _ PK NK Gt Hg) as (hd & u & Ehd & Eu & Xu & Mu & Yu & Vu).
  assert (SP : spos (SH K K K E)) by (repeat split; assumption). pose proof (nonsc K K K E NK) as NS.
  destruct (nadd0 _ u NS Xu) as (u1 & Eu1 & Xu1 & Mu1 & Yu1 & Vu1). destruct (nadd _ u1 q SP NS Xu1 Xq) as (w & Ew & Xw & Mw & Yw & Vw); [congruence|congruence|].
  exists t0, r, w. split.
  - destruct (prms_1 _ _ _ Pp) as (p & q0 & -> & -> & _ & _). cbn [o_compose o_eval]. rewrite N1, N3. cbn [negb andb]. unfold compose_evalP. cbn [rmapM]. rewrite Ev. cbn [rbind rmapM fst snd map pdrop]. rewrite Ed. cbn [rmap rbind]. rewrite Ef. cbn [rbind length seq rmapM].
    assert (Eg : ceval_grad [PT t] [[PT dd]] 0 = Ok (PT r)).
    { unfold ceval_grad. cbn [enum length seq combine rmapM]. unfold rnth. cbn [nth_error rbind pdot_left tdot_left_any]. rewrite Er. cbn [rmap rbind]. unfold pysum. cbn [ofold]. unfold py. cbn [direct reflected]. unfold tbin. cbn [tbin1]. rewrite tadd_num0. reflexivity. }
    assert (Eh : ceval_hess [PT t] [[PT h]] [[PT dd]] [[[PT hg]]] 0 0 = Ok (PT w)).
    { unfold ceval_hess. cbn [enum length seq combine ofold Nat.ltb Nat.leb]. unfold rnth2, rnth. cbn [nth_error rbind pdrop]. rewrite Ehd. cbn [rmap rbind pdot_right tdot_right_any]. rewrite Eu. cbn [rbind]. rewrite Eu1. cbn [rbind]. rewrite Eq. cbn [rbind]. rewrite Ew. reflexivity. }
    rewrite Eg. cbn [rbind]. rewrite Eh. reflexivity.
  - split.
    { rewrite (FuncCompose.compose_call_ok (s :: nil) ((K, []) :: nil) (K, E) sf1 [sf2] (W1' s E sf1 W1) (WG2 s sf2 W2) qs (proj1 (proj2 Pp))). exact Pt. }
    split.
    + split; [exact Xr|]. split; [exact Mr|]. split; [exact Yr|]. intros x y n e Hi. rewrite (Vr x y n e Hi). apply (nest_gtab s E sf1 sf2 W1 W2 ps qs _ _ Pp); auto. intros ? ? ? ? _. reflexivity.
    + split; [exact Xw|]. split; [congruence|]. split; [congruence|]. intros x y n e Hi. rewrite (Vw x y n e Hi), (Vu1 x y n e Hi), (Vq x y n e Hi), (Vu x y n e Hi), Rplus_comm.
      apply (nest_htab s E sf1 sf2 W1 W2 ps qs _ _ _ _ Pp (fun _ _ _ _ _ => eq_refl) (fun _ _ _ _ _ => eq_refl) eq_refl eq_refl). exact Hi.
Qed.
End Nest.
End ex.
