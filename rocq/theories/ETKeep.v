(** eval of Exp of a function with dim axes. *)
From Verif Require Import Prelude DenseModel AnalyticSpec DenseProofs NDArray NDProofs TensorModel TensorSpec TensorSpecOps TensorLemmas TensorBasic TensorSum TensorSumMain TensorBin TensorArith TensorShape TensorExpand TensorGeneric TensorGSum TensorDotCore TensorDot TensorUfunc TensorUfuncP FuncModel FuncSpec FTModel FTRep FTRep2 FTRep3 FTVal FTDiag FTRefine FTPrim FTAffine FTNest FTKeep LTModel ETModel ETRefine.
From Verif Require FuncPrim FuncCompose FuncWrapP FuncLemmas FuncAffine FuncSum.
From Coq Require Import Reals Lra.
Import List ListNotations.
Open Scope R_scope.
Section ex.
Context {ex : exdims}.
Section Keep.
Context (s : pst) (E : list nat) (D2 : list dt -> Prop) (f2 : tobj) (sf2 : sfun).
Notation K := (flat s).
Hypothesis NK : K <> [].
Hypothesis W2 : wellformed (s :: nil) (K, E) sf2.
Hypothesis F2 : dform s E D2 (o_f f2) sf2.
Hypothesis E2 : eform s E D2 f2 sf2.
Theorem keep_eform : eform s E D2 (o_compose o_Exp [f2]) (s_compose s_Exp [sf2]).
Proof.
  destruct F2 as [_ _ _ _ _ PK PE]. assert (PKE : posl (K ++ E)) by (apply Forall_app; auto).
  intros ps qs Pp d2. destruct (E2 ps qs Pp d2) as (v & g & hg & Ev & Pv & Gg & Hg).
  destruct (exp_value (K, E) (PT v) _ PKE Pv) as (f & Ef & Df & Pf). destruct (exp_keep_call (K, E) (PT v) _ PKE (keep_st s E sf2 W2 ps qs Pp) Pv) as (f' & Ef' & Pf').
  cbn [t_Exp t_call] in Ef'. rewrite Ef in Ef'. injection Ef' as <-.
  destruct (exp_keep_grad (K, E) (PT v) _ PKE (keep_st s E sf2 W2 ps qs Pp) Pv) as (t & Et & Gt). destruct (exp_keep_hess (K, E) (PT v) _ PKE (keep_st s E sf2 W2 ps qs Pp) Pv) as (h & Eh & Hh).
  cbn [t_Exp t_grad t_hess] in Et, Eh. rewrite Ef in Et, Eh. cbn [rbind] in Et, Eh.
  destruct (grad_tensor (PT f) [PT v] 0 MTrue (dm f)) as [t'|] eqn:Gx; [|discriminate Et]. injection Et as ->. destruct (hess_tensor (PT f) [PT v] 0 0 MTrue MTrue (dm f)) as [h'|] eqn:Hx; [|discriminate Eh]. injection Eh as ->.
  cbn [snd length] in Gx, Hx.
  destruct (kgrad K E t g _ _ PKE NK Gt Gg) as (dd & r & Ed & Er & Xr & Mr & Yr & Vr). destruct (kquad K E h g _ _ PKE NK Hh Gg) as (dd' & q & Ed' & Eq & Xq & Mq & Yq & Vq). rewrite Ed in Ed'. injection Ed' as <-.
  destruct (kright K E t hg _ _ PKE NK Gt Hg) as (hd & u & Ehd & Eu & Xu & Mu & Yu & Vu).
  assert (SP : spos (SH K K K E)) by (repeat split; assumption). pose proof (nonsc K K K E NK) as NS.
  destruct (nadd0 _ u NS Xu) as (u1 & Eu1 & Xu1 & Mu1 & Yu1 & Vu1). destruct (nadd _ u1 q SP NS Xu1 Xq) as (w & Ew & Xw & Mw & Yw & Vw); [congruence|congruence|].
  exists f, r, w. split.
  - destruct (prms_1 _ _ _ Pp) as (p & q0 & -> & -> & _ & _). cbn [o_compose o_eval o_f]. change (t_nullg (o_f ETModel.o_Exp)) with false. change (t_nullh (o_f ETModel.o_Exp)) with false. cbn [negb andb]. unfold compose_evalP. cbn [rmapM]. rewrite Ev. cbn [rbind rmapM fst snd map pdrop]. rewrite Ed. cbn [rmap rbind].
    unfold ETModel.o_Exp. cbn [o_eval]. rewrite Ef. cbn [rbind]. rewrite Gx. cbn [rbind]. rewrite Hx. cbn [rbind length seq rmapM].
    assert (Eg : ceval_grad [PT (redim (length E) t)] [[PT dd]] 0 = Ok (PT r)).
    { unfold ceval_grad. cbn [enum length seq combine rmapM]. unfold rnth. cbn [nth_error rbind pdot_left tdot_left_any]. rewrite Er. cbn [rmap rbind]. unfold pysum. cbn [ofold]. unfold py. cbn [direct reflected]. unfold tbin. cbn [tbin1]. rewrite tadd_num0. reflexivity. }
    assert (Eh : ceval_hess [PT (redim (length E) t)] [[PT (redim (length E) h)]] [[PT dd]] [[[PT hg]]] 0 0 = Ok (PT w)).
    { unfold ceval_hess. cbn [enum length seq combine ofold Nat.ltb Nat.leb]. unfold rnth2, rnth. cbn [nth_error rbind pdrop]. rewrite Ehd. cbn [rmap rbind pdot_right tdot_right_any]. rewrite Eu. cbn [rbind]. rewrite Eu1. cbn [rbind]. rewrite Eq. cbn [rbind]. rewrite Ew. reflexivity. }
    rewrite Eg. cbn [rbind]. rewrite Eh. reflexivity.
  - split.
    { rewrite (FuncCompose.compose_call_ok (s :: nil) ((K, E) :: nil) (K, E) s_Exp [sf2] (WE s E) (WK2 s E sf2 W2) qs (proj1 (proj2 Pp))). exact Pf'. }
    split.
    + split; [exact Xr|]. split; [exact Mr|]. split; [exact Yr|]. intros x y n e Hi. rewrite (Vr x y n e Hi). now apply (keep_gtab s E sf2 W2 ps qs Pp).
    + split; [exact Xw|]. split; [congruence|]. split; [congruence|]. intros x y n e Hi. rewrite (Vw x y n e Hi), (Vu1 x y n e Hi), (Vq x y n e Hi), (Vu x y n e Hi), Rplus_comm.
      now apply (keep_htab s E sf2 W2 ps qs Pp).
Qed.
End Keep.
End ex.
