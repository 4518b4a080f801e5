(** Each likelihood class computes, on Tensors, sums over the cells of the data. *)
From Verif Require Import Prelude DenseModel AnalyticSpec DenseProofs NDArray NDProofs TensorModel TensorSpec TensorSpecOps TensorLemmas TensorBasic TensorSum TensorSumMain TensorBin TensorArith TensorShape TensorExpand TensorGeneric TensorGSum TensorGUni TensorDotCore TensorDot TensorUfunc TensorUfuncP FuncModel FuncSpec FTModel FTRep FTRep2 FTRep3 FTVal LTModel LTPlain LTProd LTOuter LTCell.
From Coq Require Import Reals Lra.
Import List ListNotations.
Open Scope R_scope.
Ltac runp L := let w := fresh "w" in let E := fresh "E" in let P := fresh "P" in destruct L as (w & E & P); rewrite E; cbn [rbind]; cbn [mlev Nat.max] in P.
Ltac step Hp Hne :=
  match goal with
  | |- context [rbind (np1 ?f ?v) _] => match goal with P : pl _ _ v _ |- _ => runp (pl_np1 _ f _ v _ P) end
  | |- context [rbind (pneg ?v) _] => match goal with P : pl _ _ v _ |- _ => runp (pl_neg _ _ v _ P) end
  | |- context [rbind (py OMul (PNum ?c) ?v) _] => match goal with P : pl _ _ v _ |- _ => runp (pl_cmul _ _ v _ c P) end
  | |- context [rbind (py OMul ?v (PNum ?c)) _] => match goal with P : pl _ _ v _ |- _ => runp (pl_mulc _ _ v _ c P) end
  | |- context [rbind (py OAdd (PNum ?c) ?v) _] => match goal with P : pl _ _ v _ |- _ => runp (pl_cadd _ OAdd _ v _ c (or_introl eq_refl) P) end
  | |- context [rbind (py OSub (PNum ?c) ?v) _] => match goal with P : pl _ _ v _ |- _ => runp (pl_cadd _ OSub _ v _ c (or_intror eq_refl) P) end
  | |- context [rbind (py OAdd ?v (PNum ?c)) _] => match goal with P : pl _ _ v _ |- _ => runp (pl_addc _ OAdd _ v _ c (or_introl eq_refl) P) end
  | |- context [rbind (py OSub ?v (PNum ?c)) _] => match goal with P : pl _ _ v _ |- _ => runp (pl_addc _ OSub _ v _ c (or_intror eq_refl) P) end
  | |- context [rbind (py ODiv (PNum 1) ?v) _] => match goal with P : pl _ _ v _ |- _ => runp (pl_cdiv _ _ v _ 1 R1_neq_R0 P) end
  | |- context [rbind (py OMul ?u ?v) _] => match goal with P : pl _ _ u _, P' : pl _ _ v _ |- _ => runp (pl_mul _ Hp Hne _ _ u v _ _ P P') end
  | |- context [rbind (py OAdd ?u ?v) _] => match goal with P : pl _ _ u _, P' : pl _ _ v _ |- _ => runp (pl_as _ Hp Hne OAdd _ _ u v _ _ (or_introl eq_refl) P P') end
  | |- context [rbind (py OSub ?u ?v) _] => match goal with P : pl _ _ u _, P' : pl _ _ v _ |- _ => runp (pl_as _ Hp Hne OSub _ _ u v _ _ (or_intror eq_refl) P P') end
  | |- context [rbind (py ODiv ?u ?v) _] => match goal with P : pl ?k1 _ u ?F, P' : pl (S ?k2) _ v ?G |- _ =>
      runp (pl_div _ Hp Hne k1 (S k2) u v F G ltac:(intros Zd; discriminate Zd) P P') end
  end.

Section ex.
Context {ex : exdims}.

(** the likelihood is a sum over cells of [ell], whose first two derivatives in the
    value of the model are [dl] and [d2] *)
Record cell_est (dat : pst) (P : R -> Prop) (e : est) (ell dl d2 : idx -> idx -> R -> R) : Prop := mkCE {
  ce_like : forall y Y, pl 1 dat y Y -> (forall n d, In n (indices (fst dat)) -> In d (indices (snd dat)) -> P (Y n d)) ->
    exists v, e_like e y = Ok v /\ blk [] [] v (fun _ _ => tot dat (fun n d => ell n d (Y n d)));
  ce_grad : forall y Y Xs der F, pl 1 dat y Y -> (forall n d, In n (indices (fst dat)) -> In d (indices (snd dat)) -> P (Y n d)) ->
    (forall i, posl (Xs i)) -> isder dat Xs der F ->
    gradres Xs (length der) (e_grad e y der) (fun i x _ => tot dat (fun n d => F i x [] n d * dl n d (Y n d)));
  ce_hess : forall y Y Xs der F hess H, pl 1 dat y Y -> (forall n d, In n (indices (fst dat)) -> In d (indices (snd dat)) -> P (Y n d)) ->
    (forall i, posl (Xs i)) -> isder dat Xs der F -> ishess dat Xs (length der) hess H ->
    hessres Xs (length der) (e_hess e y der hess)
      (fun i j x y => tot dat (fun n d => H i j x y n d * dl n d (Y n d) + F i x [] n d * F j y [] n d * d2 n d (Y n d))) }.

Lemma gradres_ext Xs m r B B' : (forall i x y, (i < m)%nat -> In x (indices (Xs i)) -> In y (indices []) -> B i x y = B' i x y) -> gradres Xs m r B -> gradres Xs m r B'.
Proof.
  intros H (gs & E & L & Q). exists gs. split; [exact E|]. split; [exact L|]. intros i v Hv. eapply blk_ext; [|exact (Q i v Hv)]. intros x y Hx Hy. apply H; auto.
  rewrite <- L. apply nth_error_Some. congruence.
Qed.
Lemma hessres_ext Xs m r B B' : (forall i j x y, (i < m)%nat -> (j <= i)%nat -> In x (indices (Xs i)) -> In y (indices (Xs j)) -> B i j x y = B' i j x y) -> hessres Xs m r B -> hessres Xs m r B'.
Proof.
  intros H (gs & E & L & Q). exists gs. split; [exact E|]. split; [exact L|]. intros i j Hi Hj. destruct (Q i j Hi Hj) as (v & Ev & Bv). exists v. split; [exact Ev|].
  eapply blk_ext; [|exact Bv]. intros x y Hx Hy. apply H; auto.
Qed.
Lemma blk_neg v B : blk [] [] v B -> exists w, pneg v = Ok w /\ blk [] [] w (fun x y => - B x y).
Proof.
  intros (t & -> & W & M1 & M2 & Sh & V). destruct (retensor t (np_map Ropp (tv t)) W eq_refl) as (r & Er & Wr & E1 & E2 & E3 & E4 & Ex & Ey & Ev & S1 & S2 & S3 & S4).
  cbn [pneg]. unfold tneg. rewrite Er. cbn [rmap]. exists (PT r). split; [reflexivity|]. exists r. split; [reflexivity|]. split; [exact Wr|]. split; [congruence|]. split; [congruence|].
  split; [unfold shape_of in *; congruence|]. intros x y Hx Hy. destruct (tneg_ok t W) as (r' & Er' & _ & De). unfold tneg in Er'. rewrite Er in Er'. injection Er' as <-.
  destruct De as (Q1 & Q2 & Q3 & Q4 & Q). pose proof (f_equal SX Sh : xs (den t) = []) as Tx. pose proof (f_equal SY Sh : ys (den t) = []) as Ty. pose proof (f_equal SN Sh : ns (den t) = []) as Tn. pose proof (f_equal SD Sh : ds (den t) = []) as Td.
  rewrite Q; [|rewrite S1, Tx; auto|rewrite S2, Ty; auto|rewrite S3, Tn; now left|rewrite S4, Td; now left]. cbn [dneg dmap at_]. rewrite <- V; auto.
Qed.

Section dat.
Variable dat : pst.
Hypothesis Hp : posl (flat dat).
Hypothesis Hne : flat dat <> [].
Variables (X N Z : pval) (Xv Nv Zv : idx -> idx -> R).
Hypothesis PX : pl 2 dat X Xv.
Hypothesis PN : pl 2 dat N Nv.
Hypothesis PZ : pl 2 dat Z Zv.
Variable gammaln : R -> R.

Ltac stp := step Hp Hne.
Ltac fin_like := match goal with |- context [ssum ?r] => match goal with P : pl ?k _ r _ |- _ =>
    let w := fresh "v" in let E := fresh "E" in let B := fresh "B" in
    destruct (pl_ssum dat Hp Hne r _ P) as (w & E & B); exists w; split; [exact E|]; eapply blk_ext; [|exact B]; intros; apply tot_ext; intros; cbn [rop] end end.
Ltac fin_grad Px Hd := eapply gradres_ext; [|match goal with |- context [grad_delta ?delta _] => match goal with P : pl _ _ delta _ |- _ => apply (grad_delta_ok dat Hp Hne _ Px delta _ _ _ P Hd) end end]; intros; apply tot_ext; intros; cbn [rop].
Ltac fin_hess o Px Hd Hh := eapply hessres_ext; [|match goal with |- context [hess_delta _ ?delta ?delta2 _ _] => match goal with P : pl _ _ delta _, P' : pl _ _ delta2 _ |- _ => apply (hess_delta_ok dat Hp Hne _ Px o delta delta2 _ _ _ _ _ _ ltac:(auto) P P' Hd Hh) end end]; intros; apply tot_ext; intros; cbn [rop].

Theorem poisson_cell : cell_est dat (fun _ => True) (e_Poisson gammaln X N)
  (fun n d y => Xv n d * y - Nv n d * exp y - gammaln (Xv n d + 1))
  (fun n d y => Xv n d - Nv n d * exp y) (fun n d y => - (Nv n d * exp y)).
Proof.
  constructor.
  - intros y Y Py _. cbn [e_like e_Poisson]. repeat stp. fin_like. reflexivity.
  - intros y Y Xs der F Py _ Px Hd. cbn [e_grad e_Poisson]. repeat stp. fin_grad Px Hd. reflexivity.
  - intros y Y Xs der F hess H Py _ Px Hd Hh. cbn [e_hess e_Poisson]. repeat stp. fin_hess OSub Px Hd Hh. ring.
Qed.
Lemma Hzip s y : 0 < s -> 1 + (s - 1) * exp (- exp y) <> 0.
Proof.
  intros Hs. assert (exp (- exp y) < 1). { rewrite <- exp_0. apply exp_increasing. pose proof (exp_pos y). lra. } pose proof (exp_pos (- exp y)). nra.
Qed.
Lemma zip_w_ok s y Y : pl 1 dat y Y -> exists w, zip_w s y = Ok w /\ pl (if Req_EM_T (s - 1) 0 then 0 else 1) dat w (fun n d => 1 + (s - 1) * exp (- Y n d)).
Proof.
  intros Py. unfold zip_w. do 3 stp. destruct (pl_cadd dat OAdd _ _ _ 1 (or_introl eq_refl) P1) as (w' & E' & P'). exists w'. split; [exact E'|exact P'].
Qed.
Theorem zip_cell s : 0 < s -> cell_est dat (fun _ => True) (e_ZIP gammaln s X N Z)
  (fun n d y => Xv n d * y + Zv n d * ln s - Nv n d * ln (exp (exp y) + s - 1) - gammaln (Xv n d + 1))
  (fun n d y => Xv n d - Nv n d * exp y / (1 + (s - 1) * exp (- exp y)))
  (fun n d y => let t := exp y / (1 + (s - 1) * exp (- exp y)) in - (Nv n d * t * (1 + t * (s - 1) * exp (- exp y)))).
Proof.
  intros Hs. constructor.
  - intros y Y Py _. cbn [e_like e_ZIP]. destruct (Req_EM_T (ln s) 0) eqn:Es; (repeat stp); rewrite ?Es in *; cbn [mlev Nat.max] in *; fin_like; reflexivity.
  - intros y Y Xs der F Py _ Px Hd. cbn [e_grad e_ZIP]. do 2 stp. destruct (zip_w_ok s _ _ P) as (wz & Ez & Pz). rewrite Ez. cbn [rbind].
    runp (pl_div dat Hp Hne _ _ w0 wz _ _ (fun _ n d _ _ => Hzip s (Y n d) Hs) P0 Pz).
    assert (P2 : pl 2 dat w1 (fun n d => Nv n d * exp (Y n d) / (1 + (s - 1) * exp (- exp (Y n d))))) by (destruct (Req_EM_T (s - 1) 0); exact P1). clear P1.
    stp. fin_grad Px Hd. reflexivity.
  - intros y Y Xs der F hess H Py _ Px Hd Hh. cbn [e_hess e_ZIP]. stp. destruct (zip_w_ok s _ _ P) as (wz & Ez & Pz). rewrite Ez. cbn [rbind].
    runp (pl_div dat Hp Hne _ _ w wz _ _ (fun _ n d _ _ => Hzip s (Y n d) Hs) P Pz).
    assert (P2 : pl 1 dat w0 (fun n d => exp (Y n d) / (1 + (s - 1) * exp (- exp (Y n d))))) by (destruct (Req_EM_T (s - 1) 0); exact P0). clear P0 Pz.
    destruct (Req_EM_T (s - 1) 0) eqn:Es; (do 5 stp); rewrite ?Es in *; cbn [mlev Nat.max] in *; (repeat stp); cbn [mlev Nat.max] in *.
    + fin_hess OSub Px Hd Hh. unfold Rdiv. ring.
    + fin_hess OSub Px Hd Hh. unfold Rdiv. ring.
Qed.
Theorem logistic_cell : cell_est dat (fun _ => True) (e_Logistic X N)
  (fun n d y => - (Nv n d * ln (1 + exp (- y)) + (Nv n d - Xv n d) * y))
  (fun n d y => Xv n d - Nv n d / (1 + exp (- y)))
  (fun n d y => let p := 1 / (1 + exp (- y)) in - (p * (1 - p) * Nv n d)).
Proof.
  assert (O : forall y Y, pl 1 dat y Y -> exists u, one_expm y = Ok u /\ pl 1 dat u (fun n d => 1 + exp (- Y n d))).
  { intros y Y Py. unfold one_expm. do 2 stp. destruct (pl_cadd dat OAdd _ _ _ 1 (or_introl eq_refl) P0) as (w' & E' & P'). exists w'. split; [exact E'|exact P']. }
  constructor.
  - intros y Y Py _. cbn [e_like e_Logistic]. destruct (O y Y Py) as (u & Eu & Pu). rewrite Eu. cbn [rbind]. do 5 stp.
    destruct (pl_ssum dat Hp Hne _ _ P3) as (v & Ev & Bv). rewrite Ev. cbn [rbind]. destruct (blk_neg v _ Bv) as (v' & Ev' & Bv'). exists v'. split; [exact Ev'|]. eapply blk_ext; [|exact Bv'].
    intros x y0 _ _. cbn [rop]. unfold tot. clear.
    assert (RO : forall (f : idx -> R) l, - Rsum f l = Rsum (fun a => - f a) l) by (intros f; induction l as [|a l IH]; [rewrite !Rsum_nil; ring|rewrite !Rsum_cons, <- IH; ring]).
    rewrite RO. apply Rsum_ext. intros n _. rewrite RO. reflexivity.
  - intros y Y Xs der F Py _ Px Hd. cbn [e_grad e_Logistic]. destruct (O y Y Py) as (u & Eu & Pu). rewrite Eu. cbn [rbind]. repeat stp. fin_grad Px Hd. reflexivity.
  - intros y Y Xs der F hess H Py _ Px Hd Hh. cbn [e_hess e_Logistic]. destruct (O y Y Py) as (u & Eu & Pu). rewrite Eu. cbn [rbind]. repeat stp. fin_hess OSub Px Hd Hh. unfold Rdiv. ring.
Qed.
Theorem negbin_cell r : 0 < r -> cell_est dat (fun _ => True) (e_NegBin gammaln r X N)
  (fun n d y => gammaln (Xv n d + r) - gammaln (Xv n d + 1) + r * ln r - gammaln r + Xv n d * y - (Xv n d + r * Nv n d) * ln (r + exp y))
  (fun n d y => Xv n d - (Xv n d + r * Nv n d) * exp y / (exp y + r))
  (fun n d y => let s := exp y / (exp y + r) in (Xv n d + r * Nv n d) * s * s - (Xv n d + r * Nv n d) * s).
Proof.
  intros Hr. assert (Er : forall a b : nat, (if Req_EM_T r 0 then a else b) = b) by (intros; destruct (Req_EM_T r 0); [lra|reflexivity]). constructor.
  - intros y Y Py _. cbn [e_like e_NegBin]. repeat (stp; try match goal with Q : pl (if Req_EM_T r 0 then _ else _) _ _ _ |- _ => rewrite Er in Q end; cbn [Nat.max mlev] in * ). fin_like. reflexivity.
  - intros y Y Xs der F Py _ Px Hd. cbn [e_grad e_NegBin]. repeat (stp; try match goal with Q : pl (if Req_EM_T r 0 then _ else _) _ _ _ |- _ => rewrite Er in Q end; cbn [Nat.max mlev] in * ). fin_grad Px Hd. reflexivity.
  - intros y Y Xs der F hess H Py _ Px Hd Hh. cbn [e_hess e_NegBin]. repeat (stp; try match goal with Q : pl (if Req_EM_T r 0 then _ else _) _ _ _ |- _ => rewrite Er in Q end; cbn [Nat.max mlev] in * ). fin_hess OAdd Px Hd Hh. unfold Rdiv. ring.
Qed.
Theorem normfinite_cell : cell_est dat (fun y => 0 < y) (e_NormFinite N)
  (fun n d y => Nv n d * ln y) (fun n d y => Nv n d / y) (fun n d y => - (Nv n d / y ^ 2)).
Proof.
  constructor.
  - intros y Y Py _. cbn [e_like e_NormFinite]. repeat stp. fin_like. reflexivity.
  - intros y Y Xs der F Py _ Px Hd. cbn [e_grad e_NormFinite].
    destruct (rmapM_nth (fun d => let! a := py OMul N d in let! b := py ODiv a y in ssum b) (fun i v => blk (Xs i) [] v (fun x _ => tot dat (fun n d => F i x [] n d * (Nv n d / Y n d)))) der) as (gs & E & L & Q).
    + intros i d Hi. pose proof (S4_pos dat Hp (Xs i) [] (Px i) (Forall_nil _)) as PS. pose proof (S4_ns dat Hne (Xs i) []) as NS. pose proof (rep_wv _ _ _ _ PS NS (Hd i d Hi)) as W.
      destruct (wv_lmul _ _ _ 1 _ d N _ Nv PS NS W PN) as (w & Ew & Ww). rewrite Ew. cbn [rbind orb Nat.ltb Nat.leb] in *.
      destruct (wv_md ODiv _ _ _ 0 _ w y _ Y PS NS (or_intror eq_refl) Ww Py) as (w2 & Ew2 & Ww2). rewrite Ew2. cbn [rbind orb Nat.ltb Nat.leb] in *.
      destruct (wv_ssum dat Hp _ _ w2 _ (Px i) (Forall_nil _) Ww2) as (v & Ev & Bv). exists v. split; [exact Ev|]. eapply blk_ext; [|exact Bv]. intros x y0 Hx Hy. cbn [indices] in Hy. destruct Hy as [<-|[]].
      apply tot_ext. intros n d0 _ _. cbn [rop]. unfold Rdiv. ring.
    + exists gs. auto.
  - intros y Y Xs der F hess H Py Pos Px Hd Hh. cbn [e_hess e_NormFinite]. unfold hessres. apply triangle_ok. intros i j Hi Hj. destruct (Hh i j Hi Hj) as (h & Eh & Rh). rewrite Eh. cbn [rbind].
    destruct (outer2_ok dat Hp Hne Xs Px der F i j Hd Hi ltac:(lia)) as (q & Eq & Rq). rewrite Eq. cbn [rbind].
    pose proof (S4_pos dat Hp (Xs i) (Xs j) (Px i) (Px j)) as PS. pose proof (S4_ns dat Hne (Xs i) (Xs j)) as NS.
    destruct (log_hess_ok dat Hp Hne h q y (Xs i) (Xs j) _ _ Y (Px i) (Px j) Rh Rq Py) as (w & Ew & Ww). rewrite Ew. cbn [rbind].
    destruct (wv_lmul _ _ _ 1 _ w N _ Nv PS NS Ww PN) as (w2 & Ew2 & Ww2). rewrite Ew2. cbn [rbind orb Nat.ltb Nat.leb] in *.
    destruct (wv_ssum dat Hp _ _ w2 _ (Px i) (Px j) Ww2) as (v & Ev & Bv). exists v. split; [exact Ev|]. eapply blk_ext; [|exact Bv]. intros x y0 Hx Hy. apply tot_ext. intros n d Hn Hdd.
    specialize (Pos n d Hn Hdd). field. lra.
Qed.
End dat.
End ex.
