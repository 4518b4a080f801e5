(** Blocks: Tensors with the axes of one or two parameters; their arithmetic and
    their entries in C order. *)
From Verif Require Import Prelude DenseModel AnalyticSpec DenseProofs NDArray NDProofs TensorModel TensorSpec TensorSpecOps TensorLemmas TensorBasic TensorBin TensorArith TensorGeneric TensorGSum TensorUfunc FuncModel FTModel FTSpec LTModel LTCell LTSpec LTLik LTDer ParamModel AssembleModel AssembleSpec OTModel.
From Verif Require LTPlain FTRep.
From Coq Require Import Reals Lra.
Import List ListNotations.
Open Scope R_scope.

Lemma block_blk X Y v B : posl X -> posl Y -> is_block (Ok v) X Y B -> blk X Y v B.
Proof.
  intros PX PY (t & E & Ax & M1 & M2 & Sh & V). injection E as ->. injection Ax as A1 A2 A3 A4. exists t. split; [reflexivity|].
  assert (G : groups t X Y [] []) by (constructor; cbn; auto; now rewrite Sh, !app_nil_r).
  destruct (groups_sX t X Y [] [] G) as (S1 & S2 & S3 & S4).
  assert (W : wf t).
  { constructor.
    - rewrite Sh, app_length. lia.
    - rewrite Sh. apply Forall_app. auto.
    - rewrite M1. apply map_ok_nil.
    - rewrite M2. apply map_ok_nil. }
  split; [exact W|]. split; [exact M1|]. split; [exact M2|].
  split.
  - unfold shape_of, den. cbn [xs ys ns ds]. rewrite M1, M2, S1, S2, S3, S4. cbn. destruct X, Y; reflexivity.
  - intros x y Hx Hy. unfold den. cbn [at_]. rewrite M1, M2. cbn. rewrite !app_nil_r, V by auto. ring.
Qed.
Lemma blk_inv X Y v B : blk X Y v B -> exists t, v = PT t.
Proof. intros (t & -> & _). now exists t. Qed.
Lemma blk_dsame X Y t r B C op : wf r -> xm r = [] -> ym r = [] -> shape_of (den t) = SH X Y [] [] -> dsame (den r) (dmap op (den t)) ->
  (forall x y, In x (indices X) -> In y (indices Y) -> at_ (den t) x y [] [] = B x y) ->
  (forall x y, In x (indices X) -> In y (indices Y) -> op (B x y) = C x y) -> blk X Y (PT r) C.
Proof.
  intros W M1 M2 Sh (E1 & E2 & E3 & E4 & E) V H. exists r. split; [reflexivity|]. split; [exact W|]. split; [exact M1|]. split; [exact M2|]. cbn [dmap xs ys ns ds] in E1, E2, E3, E4.
  rewrite (f_equal SX Sh : xs (den t) = X) in E1. rewrite (f_equal SY Sh : ys (den t) = Y) in E2. rewrite (f_equal SN Sh : ns (den t) = []) in E3. rewrite (f_equal SD Sh : ds (den t) = []) in E4.
  split; [unfold shape_of; congruence|]. intros x y Hx Hy. rewrite E by (rewrite ?E1, ?E2, ?E3, ?E4; auto; now left). cbn [dmap at_]. rewrite V by auto. now apply H.
Qed.
Lemma blk_num o X Y u A c : o = OAdd \/ o = OSub -> blk X Y u A -> exists w, py o u (PNum c) = Ok w /\ blk X Y w (fun x y => rop o (A x y) c).
Proof.
  intros Ho (t & -> & W & M1 & M2 & Sh & V). assert (Ad : additive (direct o) = true) by (destruct Ho as [-> | ->]; reflexivity).
  destruct (tbin_add_num t c (direct o) W Ad) as (r & Er & Wr & De). exists (PT r). rewrite (proj1 (LTPlain.tbin_num_op (PT t) t c o eq_refl)), Er. split; [reflexivity|].
  assert (M : xm r = [] /\ ym r = []).
  { revert Er. unfold tbin_num. destruct (Req_EM_T c 0) as [E0|N0].
    - destruct Ho as [-> | ->]; cbn [direct]; intros E; injection E as <-; auto.
    - assert (F : forall (X0 : res tensor) Y0, (if (if Req_EM_T c 1 then match direct o with MUL | DIV => true | _ => false end else false) then X0 else Y0) = Y0) by (intros; destruct Ho as [-> | ->]; cbn [direct]; destruct (Req_EM_T c 1); reflexivity).
      rewrite F, Ad. destruct (toarray t) as [a|]; [|discriminate]. cbn [rbind]. unfold Tensor. destruct (Nat.ltb _ _); [discriminate|]. intros E; injection E as <-. auto. }
  eapply blk_dsame; [exact Wr|apply M|apply M|exact Sh|exact De|exact V|]. intros x y _ _. destruct Ho as [-> | ->]; reflexivity.
Qed.
Lemma blk_shp X Y t : wf t -> xm t = [] -> ym t = [] -> shape_of (den t) = SH X Y [] [] -> sX t = X /\ sY t = Y /\ sN t = [] /\ sD t = [] /\ shp (tv t) = X ++ Y.
Proof.
  intros W M1 M2 Sh.
  assert (E1 : sX t = X) by (pose proof (f_equal SX Sh) as E; cbn in E; rewrite M1 in E; now destruct (sX t)).
  assert (E2 : sY t = Y) by (pose proof (f_equal SY Sh) as E; cbn in E; rewrite M2 in E; now destruct (sY t)).
  pose proof (f_equal SN Sh) as E3. pose proof (f_equal SD Sh) as E4. cbn in E3, E4. repeat (split; [assumption|]).
  now rewrite (g_shp _ _ _ _ _ (wf_groups t W)), E1, E2, E3, E4, !app_nil_r.
Qed.
Lemma bcompat_refl l : Forall2 bcompat l l.
Proof. induction l; constructor; auto. now left. Qed.
Lemma bmax_id l : bmax l l = l.
Proof. apply FTRep.bmax_same. Qed.
Lemma blk_same o X Y u v A B : o = OAdd \/ o = OSub -> blk X Y u A -> blk X Y v B -> exists w, py o u v = Ok w /\ blk X Y w (fun x y => rop o (A x y) (B x y)).
Proof.
  intros Ho Bu Bv. destruct (X ++ Y) as [|k l] eqn:EXY.
  - apply app_eq_nil in EXY as [-> ->]. pose proof Bv as (t' & -> & W' & M1' & M2' & Sh' & V'). destruct (blk_shp [] [] t' W' M1' M2' Sh') as (S1 & S2 & S3 & S4 & Ss).
    destruct (blk_num o [] [] u A (el (tv t') []) Ho Bu) as (w & Ew & Bw). pose proof Bu as (t & -> & _). exists w. split.
    + rewrite <- Ew. cbn [py]. unfold tbin, tbin_t. cbn in Ss. rewrite Ss. cbn. destruct (tbin_num t (el (tv t') []) (direct o)); reflexivity.
    + eapply blk_ext; [|exact Bw]. intros x y [<-|[]] [<-|[]]. cbn beta. f_equal. rewrite <- (V' [] []) by (now left). unfold den. cbn [at_]. rewrite M1', M2'. cbn. ring.
  - pose proof Bu as (t & -> & W & M1 & M2 & Sh & V). pose proof Bv as (t' & -> & W' & M1' & M2' & Sh' & V').
    destruct (blk_shp X Y t W M1 M2 Sh) as (S1 & S2 & S3 & S4 & Ss). destruct (blk_shp X Y t' W' M1' M2' Sh') as (S1' & S2' & S3' & S4' & Ss').
    assert (Ad : additive (direct o) = true) by (destruct Ho as [-> | ->]; reflexivity).
    destruct (tadd_same t t' (direct o) W W') as (r & Er & Wr & _ & R1 & R2 & De); auto; try congruence.
    + split; [rewrite M1|rewrite M2]; constructor.
    + split; [rewrite M1'|rewrite M2']; constructor.
    + constructor; rewrite ?S1, ?S2, ?S3, ?S4, ?S1', ?S2', ?S3', ?S4', ?M1, ?M2, ?M1', ?M2'; try (right; right; apply bcompat_refl); intros f [].
    + exists (PT r). split; [cbn [py]; unfold tbin, tbin_t; rewrite Ss', EXY; exact Er|].
      exists r. split; [reflexivity|]. split; [exact Wr|]. split; [congruence|]. split; [congruence|]. destruct De as (E1 & E2 & E3 & E4 & E). cbn [dbin xs ys ns ds] in E1, E2, E3, E4.
      rewrite (f_equal SX Sh : xs (den t) = X), (f_equal SX Sh' : xs (den t') = X), bmax_id in E1. rewrite (f_equal SY Sh : ys (den t) = Y), (f_equal SY Sh' : ys (den t') = Y), bmax_id in E2.
      rewrite (f_equal SN Sh : ns (den t) = []), (f_equal SN Sh' : ns (den t') = []), bmax_id in E3. rewrite (f_equal SD Sh : ds (den t) = []), (f_equal SD Sh' : ds (den t') = []), bmax_id in E4.
      split; [unfold shape_of; congruence|]. intros x y Hx Hy. rewrite E by (rewrite ?E1, ?E2, ?E3, ?E4; auto; now left). cbn [dbin at_].
      pose proof (blk_get X Y (PT t) A x y [] [] (ex_intro _ t (conj eq_refl (conj W (conj M1 (conj M2 (conj Sh V)))))) Hx Hy) as G1.
      pose proof (blk_get X Y (PT t') B x y [] [] (ex_intro _ t' (conj eq_refl (conj W' (conj M1' (conj M2' (conj Sh' V')))))) Hx Hy) as G2. cbn [vden] in G1, G2. rewrite G1, G2.
      destruct Ho as [-> | ->]; reflexivity.
Qed.
(** [v] a block of the same axes or a single number *)
Definition blk1 (X Y : list nat) (v : pval) (B : idx -> idx -> R) : Prop := blk X Y v B \/ exists c, blk [] [] v (fun _ _ => c) /\ forall x y, In x (indices X) -> In y (indices Y) -> B x y = c.
Lemma blk_op o X Y u v A B : o = OAdd \/ o = OSub -> blk X Y u A -> blk1 X Y v B -> exists w, py o u v = Ok w /\ blk X Y w (fun x y => rop o (A x y) (B x y)).
Proof.
  intros Ho Bu [Bv|(c & Bv & H)]; [now apply blk_same|].
  pose proof Bv as (t' & -> & W' & M1' & M2' & Sh' & V'). destruct (blk_shp [] [] t' W' M1' M2' Sh') as (S1 & S2 & S3 & S4 & Ss).
  destruct (blk_num o X Y u A (el (tv t') []) Ho Bu) as (w & Ew & Bw). pose proof Bu as (t & -> & _). exists w. split.
  - rewrite <- Ew. cbn [py]. unfold tbin, tbin_t. cbn in Ss. rewrite Ss. cbn. destruct (tbin_num t (el (tv t') []) (direct o)); reflexivity.
  - eapply blk_ext; [|exact Bw]. intros x y Hx Hy. cbn beta. f_equal. rewrite H by auto. rewrite <- (V' [] []) by (now left). unfold den. cbn [at_]. rewrite M1', M2'. cbn. ring.
Qed.
