(** Finite (maxlike.py:98-153): the computation of like, grad_like, hess_like. *)
From Verif Require Import Prelude DenseModel AnalyticSpec DenseProofs NDArray NDProofs TensorModel TensorSpec TensorSpecOps TensorLemmas TensorBasic TensorSum TensorSumMain TensorBin TensorArith TensorShape TensorExpand TensorGeneric TensorGSum TensorGUni TensorGMix TensorDotCore TensorDot TensorUfunc TensorUfuncP FuncModel FuncSpec FTModel FTSpec FTRep FTRep2 FTBuilt LTModel LTPlain LTProd LTOuter LTCell LTEst LTMix.
From Coq Require Import Reals Lra.
Import List ListNotations.
Open Scope R_scope.
#[local] Existing Instance full_dims.

Section dat.
Variable dat : pst.
Hypothesis Hp : posl (flat dat).
Hypothesis HN : fst dat <> [].
Variables (N : pval) (Nv : idx -> idx -> R).
Hypothesis PN : pl 2 dat N Nv.
(** the data without their dim axes *)
Definition dat0 : pst := (fst dat, []).
Lemma Hne : flat dat <> []. Proof. unfold flat. intros E. apply app_eq_nil in E. now apply HN. Qed.
Lemma HpN : posl (fst dat). Proof. apply Forall_app in Hp. apply Hp. Qed.
Lemma HpD : posl (snd dat). Proof. apply Forall_app in Hp. apply Hp. Qed.
Lemma Hp0 : posl (flat dat0). Proof. unfold flat, dat0. cbn [fst snd]. rewrite app_nil_r. apply HpN. Qed.
Lemma Hne0 : flat dat0 <> []. Proof. unfold flat, dat0. cbn [fst snd]. rewrite app_nil_r. exact HN. Qed.

Definition zs (Y : idx -> idx -> R) (n : idx) : R := Rsum (fun d => Y n d) (indices (snd dat)).
(** y.sum(False) *)
Lemma z_ok y Y : pl 1 dat y Y -> (forall t, y = PT t -> sD t = snd dat) -> exists z, sumdims y = Ok z /\ pl 1 dat0 z (fun n _ => zs Y n).
Proof.
  intros (t & -> & P & L & V) Ex. specialize (Ex t eq_refl). destruct (plt_facts t P) as (X0 & Y0 & Mx & My & Sh & EX & EY & Ft). pose proof P as (W & X & Yy).
  destruct (tsum_dims_ok t W Ft) as (r & Er & Wr & Tr & De). exists (PT r). cbn [sumdims]. rewrite Er. split; [reflexivity|].
  pose proof De as (E1 & E2 & E3 & E4 & _). cbn [dsum_axes xs ys ns ds] in E1, E2, E3, E4. destruct L as [L1 L2].
  assert (Pr : plt r) by (split; [exact Wr|split; congruence]).
  exists r. split; [reflexivity|]. split; [exact Pr|]. split; [split; cbn [fst snd dat0]; [rewrite E3; exact L1|rewrite E4; constructor]|].
  cbn [fst snd dat0]. intros n d Hn [<-|[]].
  assert (DB : dbelow (SH [] [] (fst dat) []) (den r)). { constructor; cbn [SX SY SN SD]; [left; congruence|left; congruence|right; rewrite E3; exact L1|left; exact E4]. }
  rewrite (dsame_at (SH [] [] (fst dat) []) _ _ [] [] n [] De); [|now apply wf_dpos|exact DB|split; [now left|split; [now left|split; [exact Hn|now left]]]].
  rewrite get_dims by auto. assert (ED : ds (den t) = snd dat) by exact Ex. rewrite ED. apply Rsum_ext. intros d Hd. now apply V.
Qed.
Lemma S4_0 X Y : S4 dat0 X Y = SH X Y (fst dat) []. Proof. reflexivity. Qed.
Lemma nodim bn X Y v F : posl X -> posl Y -> wv true true bn (S4 dat0 X Y) v F -> mv (S4 dat X Y) v (fun x y n _ => F x y n []).
Proof. intros PX PY. apply wv_nodim; auto. apply HpN. Qed.
(** N * (u - v) summed, where v has no dim axes *)
Lemma fin_ok X Y bn cn u v F G : posl X -> posl Y -> wv true true bn (S4 dat X Y) u F -> wv true true cn (S4 dat0 X Y) v G ->
  exists w, (let! c := py OSub u v in let! w := py OMul N c in ssum w) = Ok w /\ blk X Y w (fun x y => tot dat (fun n d => Nv n d * (F x y n d - G x y n []))).
Proof.
  intros PX PY Hu Hv. pose proof (S4_pos dat Hp X Y PX PY) as PS. pose proof (S4_ns dat Hne X Y) as NS.
  destruct (mv_sub _ u v _ _ PS (wv_mv _ _ _ _ Hu) (nodim _ _ _ _ _ PX PY Hv)) as (c & Ec & Mc). rewrite Ec. cbn [rbind].
  destruct (mv_lmul _ c N _ Nv PS NS Mc PN) as (w & Ew & Ww). rewrite Ew. cbn [rbind]. exact (wv_ssum dat Hp _ _ w _ PX PY Ww).
Qed.

Lemma finite_like y Y : pl 1 dat y Y -> (forall t, y = PT t -> sD t = snd dat) ->
  exists v, e_like (e_Finite N) y = Ok v /\ blk [] [] v (fun _ _ => tot dat (fun n d => Nv n d * (ln (Y n d) - ln (zs Y n)))).
Proof.
  intros Py Ex. cbn [e_like e_Finite]. destruct (z_ok y Y Py Ex) as (z & Ez & Pz). rewrite Ez. cbn [rbind].
  destruct (pl_np1 dat ln _ _ _ Py) as (a & Ea & Pa). rewrite Ea. cbn [rbind]. destruct (pl_np1 dat0 ln _ _ _ Pz) as (b & Eb & Pb). rewrite Eb. cbn [rbind].
  pose proof (pl_wv dat Hne 0 _ _ Pa) as Wa. pose proof (pl_wv dat0 Hne0 0 _ _ Pb) as Wb.
  exact (fin_ok [] [] _ _ a b _ _ (Forall_nil _) (Forall_nil _) Wa Wb).
Qed.
Lemma finite_grad y Y Xs der F : (forall i, posl (Xs i)) -> pl 1 dat y Y -> (forall t, y = PT t -> sD t = snd dat) -> isder dat Xs der F ->
  gradres Xs (length der) (e_grad (e_Finite N) y der) (fun i x _ => tot dat (fun n d => Nv n d * (F i x [] n d / Y n d - zs (F i x []) n / zs Y n))).
Proof.
  intros Px Py Ex Hd. cbn [e_grad e_Finite]. destruct (z_ok y Y Py Ex) as (z & Ez & Pz). rewrite Ez. cbn [rbind].
  apply rmapM_nth. intros i d Hi.
  pose proof (S4_pos dat Hp (Xs i) [] (Px i) (Forall_nil _)) as PS. pose proof (S4_ns dat Hne (Xs i) []) as NS. pose proof (S4_pos dat0 Hp0 (Xs i) [] (Px i) (Forall_nil _)) as PS0. pose proof (S4_ns dat0 Hne0 (Xs i) []) as NS0.
  destruct (sumdims_rep true (Xs i) [] (fst dat) (snd dat) d (F i) (Px i) (Forall_nil _) HpN HpD HN (Hd i d Hi)) as (dz & Edz & Rz). rewrite Edz. cbn [rbind].
  destruct (wv_md ODiv _ _ _ 0 _ d y _ Y PS NS (or_intror eq_refl) (rep_wv _ _ _ _ PS NS (Hd i d Hi)) Py) as (a & Ea & Wa). rewrite Ea. cbn [rbind orb Nat.ltb Nat.leb] in *.
  destruct (wv_md ODiv _ _ _ 0 _ dz z _ _ PS0 NS0 (or_intror eq_refl) (rep_wv _ _ _ _ PS0 NS0 Rz) Pz) as (b & Eb & Wb). rewrite Eb. cbn [rbind orb Nat.ltb Nat.leb] in *.
  destruct (fin_ok (Xs i) [] _ _ a b _ _ (Px i) (Forall_nil _) Wa Wb) as (w & Ew & Bw). exists w. split; [exact Ew|]. eapply blk_ext; [|exact Bw].
  intros x y0 Hx Hy. cbn [indices] in Hy. destruct Hy as [<-|[]]. reflexivity.
Qed.
Lemma finite_hess y Y Xs der F hess H : (forall i, posl (Xs i)) -> pl 1 dat y Y -> (forall t, y = PT t -> sD t = snd dat) -> isder dat Xs der F -> ishess dat Xs (length der) hess H ->
  hessres Xs (length der) (e_hess (e_Finite N) y der hess) (fun i j x y => tot dat (fun n d => Nv n d *
    ((H i j x y n d - F i x [] n d * F j y [] n d / Y n d) / Y n d - (zs (H i j x y) n - zs (F i x []) n * zs (F j y []) n / zs Y n) / zs Y n))).
Proof.
  intros Px Py Ex Hd Hh. cbn [e_hess e_Finite]. destruct (z_ok y Y Py Ex) as (z & Ez & Pz). rewrite Ez. cbn [rbind].
  destruct (rmapM_nth sumdims (fun i w => rep true anyQ (S4 dat0 (Xs i) []) w (fun x y n _ => zs (F i x y) n)) der) as (dz & Edz & Ldz & Rdz).
  { intros i d Hi. exact (sumdims_rep true (Xs i) [] (fst dat) (snd dat) d (F i) (Px i) (Forall_nil _) HpN HpD HN (Hd i d Hi)). }
  rewrite Edz. cbn [rbind]. unfold hessres. apply triangle_ok. intros i j Hi Hj. destruct (Hh i j Hi Hj) as (h & Eh & Rh). rewrite Eh. cbn [rbind].
  destruct (sumdims_rep false (Xs i) (Xs j) (fst dat) (snd dat) h (H i j) (Px i) (Px j) HpN HpD HN Rh) as (hz & Ehz & Rhz). rewrite Ehz. cbn [rbind].
  destruct (outer2_ok dat Hp Hne Xs Px der F i j Hd Hi ltac:(lia)) as (q & Eq & Rq). rewrite Eq. cbn [rbind].
  destruct (log_hess_ok dat Hp Hne h q y (Xs i) (Xs j) _ _ Y (Px i) (Px j) Rh Rq Py) as (w & Ew & Ww). rewrite Ew. cbn [rbind].
  destruct (outer2_ok dat0 Hp0 Hne0 Xs Px dz (fun i x y n _ => zs (F i x y) n) i j Rdz ltac:(lia) ltac:(lia)) as (qz & Eqz & Rqz). rewrite Eqz. cbn [rbind].
  destruct (log_hess_ok dat0 Hp0 Hne0 hz qz z (Xs i) (Xs j) _ _ _ (Px i) (Px j) Rhz Rqz Pz) as (wz & Ewz & Wwz). rewrite Ewz. cbn [rbind].
  destruct (fin_ok (Xs i) (Xs j) _ _ w wz _ _ (Px i) (Px j) Ww Wwz) as (r & Er & Br). exists r. split; [exact Er|]. exact Br.
Qed.
End dat.
