(** Product.eval (maxlike/func/func_op.py:285-300), which builds the value, the
    gradients and the Hessians factor by factor, agrees with the three methods. *)
From Verif Require Import Prelude DenseModel AnalyticSpec DenseProofs NDArray NDProofs TensorModel TensorSpec TensorSpecOps TensorLemmas TensorBasic TensorSum TensorSumMain TensorBin TensorArith TensorShape TensorExpand TensorGeneric TensorGSum TensorGUni TensorDotCore TensorDot TensorUfunc TensorUfuncP FuncModel FuncSpec FTModel FTSpec FTRep FTRep2 FTRep3 FTVal FTRefine LTModel LTPlain LTProd LTOuter FTSum FTBuilt ETModel ETRefine ETSpec ETBuilt PTModel PTMix PTProduct PTBuilt.
From Verif Require FuncPrim FuncCompose FuncLemmas FuncAffine FuncSum FuncProduct.
From Coquelicot Require Import Coquelicot.
From Coq Require Import Reals Lra.
Import List ListNotations.
Open Scope R_scope.
Lemma tzero_mc S : mc S tzero.
Proof. right. exists (tnum 0). repeat split; reflexivity. Qed.
Lemma get_tzero x y n d : get (vden tzero) x y n d = 0.
Proof. apply zval_get. exists (tnum 0). repeat split; reflexivity. Qed.
Lemma nth_rep {A} (a d : A) n i : (i < n)%nat -> nth i (repeat a n) d = a.
Proof. revert i. induction n as [|n IH]; intros [|i] H; cbn; try lia; [reflexivity|]. apply IH. lia. Qed.
Lemma rmapM_list_P {A B} (f : A -> res B) (P : A -> B -> Prop) l : (forall a, In a l -> exists b, f a = Ok b /\ P a b) -> exists bs, rmapM f l = Ok bs /\ Forall2 P l bs.
Proof.
  induction l as [|a l IH]; intros H; [exists []; split; [reflexivity|constructor]|]. destruct (H a (or_introl eq_refl)) as (b & Eb & Pb). destruct IH as (bs & E & F); [intros; apply H; now right|].
  exists (b :: bs). cbn [rmapM]. rewrite Eb. cbn [rbind]. rewrite E. split; [reflexivity|now constructor].
Qed.
Section ex.
Context {ex : exdims}.
Section PE.
Context (ss : list pst) (D : list dt -> Prop) (az : list (atom * tobj)).
Notation ats := (map fst az).
Notation J := (join (map a_o ats)).
Notation m := (length az).
Notation sX i := (flat (nth i ss ([], []))).
Notation NJ := (fst J).
Notation DJ := (snd J).
Hypothesis Pss : Forall (fun s => posl (flat s)) ss.
Hypothesis Ne : ats <> [].
Hypothesis Bc : broadcastable (map a_o ats).
Hypothesis HJ : flat J <> [].
Hypothesis Dr : Forall (fun a => DR (snd (a_o a)) (snd J)) ats.
Hypothesis Cr : Forall (fun a => correct ss (a_o a) D (a_s a)) ats.
Hypothesis Rf : Forall (fun a => refines ss (a_o a) D (a_mf a) (a_dep a) (a_col a) (a_t a) (a_s a)) ats.
Hypothesis Mf : Forall (fun a => forall f, In f (a_mf a) -> nth f (fst (a_o a)) 1%nat = nth f (fst J) 1%nat) ats.
Hypothesis Ef : Forall (fun p => eok ss (a_o (fst p)) D (a_mf (fst p)) (a_dep (fst p)) (a_col (fst p)) (snd p) (a_s (fst p))) az.
Notation F := (map a_s ats).
Notation pin' := (pin ss D ats Bc Dr Cr Rf Mf).
Notation sG := (sposG ss D ats Pss Ne Bc HJ Dr Cr Rf Mf).
Notation sH := (sposH ss D ats Pss Ne Bc HJ Dr Cr Rf Mf).
Notation s0 := (spos0 ss D ats Ne Bc HJ Dr Cr Rf Mf).
Section At.
Context (ps : list pval) (qs : list dt) (Pp : prms ss ps qs) (Dq : D qs).
Notation Hs := (proj1 (proj2 Pp)).
Notation Vk := (fun n d k => FuncProduct.V F qs n d k).
Notation Gk := (fun i x n d k => FuncProduct.Gr F qs i x n d k).
Notation Hk := (fun i j x y n d k => FuncProduct.Hs F qs i j x y n d k).
Record after (k : nat) (e : evalP) : Prop := mkAfter {
  af_v : pmc NJ DJ (fst (fst e));
  af_vv : forall n d, In n (indices NJ) -> In d (indices DJ) -> pget (fst (fst e)) n d = Rprod (Vk n d) (seq 0 k);
  af_lg : length (snd (fst e)) = length ss;
  af_g : forall i, (i < length ss)%nat -> mc (SH (sX i) [] NJ DJ) (nth i (snd (fst e)) tzero) /\ forall x n d, In x (indices (sX i)) -> In n (indices NJ) -> In d (indices DJ) ->
    get (vden (nth i (snd (fst e)) tzero)) x [] n d = FuncProduct.LG (Vk n d) (Gk i x n d) k;
  af_lh : length (snd e) = length ss;
  af_h : forall i, (i < length ss)%nat -> length (nth i (snd e) []) = Datatypes.S i /\ forall j, (j <= i)%nat -> mc (SH (sX i) (sX j) NJ DJ) (nth j (nth i (snd e) []) tzero) /\
    forall x y n d, at_shape (SH (sX i) (sX j) NJ DJ) x y n d -> get (vden (nth j (nth i (snd e) []) tzero)) x y n d = FuncProduct.LH (Vk n d) (Gk i x n d) (Gk j y n d) (Hk i j x y n d) k }.
Lemma after_0 : after 0 (PNum 1, repeat tzero (length ps), map (fun i => repeat tzero (Datatypes.S i)) (seq 0 (length ps))).
Proof.
  pose proof (proj1 Pp) as L. constructor; cbn [fst snd].
  - now left.
  - intros n d _ _. unfold pget. rewrite get_num. reflexivity.
  - now rewrite repeat_length.
  - intros i Hi. rewrite nth_rep by lia. split; [apply tzero_mc|]. intros x n d _ _ _. rewrite get_tzero. reflexivity.
  - now rewrite map_length, seq_length.
  - intros i Hi. rewrite nth_indep with (d' := repeat tzero 1) by (rewrite map_length, seq_length; lia).
    rewrite (map_nth (fun i => repeat tzero (Datatypes.S i)) (seq 0 (length ps)) 0%nat i). rewrite seq_nth by lia. cbn [plus]. split; [apply repeat_length|].
    intros j Hj. rewrite nth_rep by lia. split; [apply tzero_mc|]. intros x y n d _. rewrite get_tzero. reflexivity.
Qed.
(** what eval of one factor gives *)
Record part (k : nat) (av : pval) (ag : list pval) (ah : list (list pval)) : Prop := mkPart {
  pa_v : mc (SH [] [] NJ DJ) av;
  pa_vv : forall n d, In n (indices NJ) -> In d (indices DJ) -> pget av n d = Vk n d k;
  pa_lg : length ag = length ss;
  pa_g : forall i, (i < length ss)%nat -> mc (SH (sX i) [] NJ DJ) (nth i ag tzero) /\ forall x n d, In x (indices (sX i)) -> In n (indices NJ) -> In d (indices DJ) ->
    get (vden (nth i ag tzero)) x [] n d = Gk i x n d k;
  pa_lh : length ah = length ss;
  pa_h : forall i, (i < length ss)%nat -> length (nth i ah []) = Datatypes.S i /\ forall j, (j <= i)%nat -> mc (SH (sX i) (sX j) NJ DJ) (nth j (nth i ah []) tzero) /\
    forall x y n d, at_shape (SH (sX i) (sX j) NJ DJ) x y n d -> get (vden (nth j (nth i ah []) tzero)) x y n d = Hk i j x y n d k }.
Lemma part_ok k a ob : nth_error az k = Some (a, ob) -> exists av ag ah, o_eval ob ps = Ok (av, ag, ah) /\ part k av ag ah.
Proof.
  intros Hnk. pose proof (nth_error_In _ _ Hnk) as Hp. assert (Ha : In a ats) by (apply (in_map fst az (a, ob)); exact Hp).
  assert (Ek : nth k F FuncCompose.fnull = a_s a).
  { apply nth_error_nth. rewrite map_map. rewrite nth_error_map, Hnk. reflexivity. }
  destruct (pin' a Ha) as (A1 & A2 & C & R & M & Dk). pose proof (c_wf _ _ _ _ C) as Wa.
  pose proof (proj1 (Forall_forall _ _) Ef _ Hp ps qs Pp Dq) as ([[av ag] ah] & Ee & Va & Lag & Lah & Ga & Hh). cbn [fst snd] in *.
  exists av, ag, ah. split; [exact Ee|].
  destruct (vrel_mc (a_col a) (a_o a) J av (val (f_call (a_s a) qs)) A1 A2 HJ (rf_pos _ _ _ _ _ _ _ _ R) (FuncAffine.call_st Wa qs Hs) Va) as [Mv Kv].
  constructor; auto.
  - intros n d Hn Hd. unfold FuncProduct.V. rewrite Ek. now apply Kv.
  - intros i Hi. specialize (Ga i Hi). unfold gsh in Ga.
    assert (Gw : rep (a_dep a i) (Qm (a_mf a)) (SH (sX i) [] NJ DJ) (nth i ag tzero) (get (val (f_grad (a_s a) qs i)))).
    { eapply (rep_grow _ _ (sX i) [] (a_o a) J _ _ _ A1 A2 Dk HJ M); [|exact Ga]. intros x y n d. apply (FuncSum.tst_clamp_nd _ _ _ _ x y n d (FuncAffine.grad_tst Wa qs i Hs Hi)). }
    destruct (rep_mc _ _ _ _ _ (HJ : nonscalar (SH (sX i) [] NJ DJ)) Gw) as [Mg Tg]. split; [exact Mg|].
    intros x n d Hx Hn Hd. rewrite Tg by (repeat split; auto; now left). unfold FuncProduct.Gr. now rewrite Ek.
  - intros i Hi. destruct (Hh i Hi) as [Lr Hr]. split; [exact Lr|]. intros j Hj. specialize (Hr j Hj). unfold hsh in Hr.
    assert (Gw : rep false (Qm (a_mf a)) (SH (sX i) (sX j) NJ DJ) (nth j (nth i ah []) tzero) (get (val (f_hess (a_s a) qs i j)))).
    { eapply (rep_grow _ _ (sX i) (sX j) (a_o a) J _ _ _ A1 A2 Dk HJ M); [|exact Hr]. intros x y n d. apply (FuncSum.tst_clamp_nd _ _ _ _ x y n d (FuncAffine.hess_tst Wa qs i j Hs Hi Hj)). }
    destruct (rep_mc _ _ _ _ _ (HJ : nonscalar (SH (sX i) (sX j) NJ DJ)) Gw) as [Mg Tg]. split; [exact Mg|].
    intros x y n d Hx. rewrite Tg by exact Hx. unfold FuncProduct.Hs, hess_at. rewrite Ek. now rewrite (proj2 (Nat.leb_le j i) Hj).
Qed.
Lemma step_ok k e p : nth_error az k = Some p -> after k e -> exists e', pe_step (length ps) ps e (snd p) = Ok e' /\ after (Datatypes.S k) e'.
Proof.
  destruct p as [a ob]. cbn [snd]. intros Hnk A. destruct e as [[v gs] hs]. destruct A as [Av Avv Alg Ag Alh Ah]. cbn [fst snd] in *.
  destruct (part_ok k a ob Hnk) as (av & ag & ah & Ee & [Bv Bvv Blg Bg Blh Bh]). pose proof (proj1 Pp) as L. unfold pe_step. rewrite Ee. cbn [rbind]. rewrite L.
  (* the Hessians *)
  assert (Eh : forall i j, (i < length ss)%nat -> (j <= i)%nat -> exists w, pe_hess v gs hs av ag ah i j = Ok w /\ mc (SH (sX i) (sX j) NJ DJ) w /\
    forall x y n d, at_shape (SH (sX i) (sX j) NJ DJ) x y n d -> get (vden w) x y n d = FuncProduct.LH (Vk n d) (Gk i x n d) (Gk j y n d) (Hk i j x y n d) (Datatypes.S k)).
  { intros i j Hi Hj. assert (Hj' : (j < length ss)%nat) by lia. pose proof (sH i j Hi Hj') as PS. unfold pe_hess.
    destruct (Ah i Hi) as [La Ha']. destruct (Ha' j Hj) as [Ma Ka]. destruct (Bh i Hi) as [Lb Hb']. destruct (Hb' j Hj) as [Mb Kb].
    destruct (Ag i Hi) as [Mgi Kgi]. destruct (Ag j Hj') as [Mgj Kgj]. destruct (Bg i Hi) as [Nbi Kbi]. destruct (Bg j Hj') as [Nbj Kbj].
    rewrite (rnth2_nth ah i j tzero) by lia. cbn [rbind]. destruct (pmul _ _ _ _ v _ PS Av Mb) as (w1 & E1 & M1 & K1). rewrite E1. cbn [rbind].
    rewrite (rnth2_nth hs i j tzero) by lia. cbn [rbind]. destruct (pmul _ _ _ _ av _ PS (or_intror Bv) Ma) as (w2 & E2 & M2 & K2). rewrite E2. cbn [rbind].
    destruct (mc_add _ _ _ PS M1 M2) as (w3 & E3 & M3 & K3). rewrite E3. cbn [rbind].
    rewrite (rnth_nth gs i tzero) by lia. cbn [rbind]. rewrite (rnth_nth ag j tzero) by lia. cbn [rbind].
    destruct (mc_trans _ _ _ _ (sG j Hj') Nbj) as (t1 & Et1 & Mt1 & Kt1). rewrite Et1. cbn [rbind]. destruct (mc_outer _ _ _ _ _ _ PS Mgi Mt1) as (w4 & E4 & M4 & K4). rewrite E4. cbn [rbind].
    destruct (mc_add _ _ _ PS M3 M4) as (w5 & E5 & M5 & K5). rewrite E5. cbn [rbind].
    rewrite (rnth_nth ag i tzero) by lia. cbn [rbind]. rewrite (rnth_nth gs j tzero) by lia. cbn [rbind].
    destruct (mc_trans _ _ _ _ (sG j Hj') Mgj) as (t2 & Et2 & Mt2 & Kt2). rewrite Et2. cbn [rbind]. destruct (mc_outer _ _ _ _ _ _ PS Nbi Mt2) as (w6 & E6 & M6 & K6). rewrite E6. cbn [rbind].
    destruct (mc_add _ _ _ PS M5 M6) as (w7 & E7 & M7 & K7). exists w7. split; [exact E7|]. split; [exact M7|].
    intros x y n d Hi0. pose proof Hi0 as (H1 & H2 & H3 & H4). cbn [SX SY SN SD] in H1, H2, H3, H4. rewrite K7, K5, K3, K1, K2, K4, K6 by exact Hi0.
    rewrite Kt1, Kt2 by (repeat split; auto; now left). rewrite Kb, Ka by exact Hi0. rewrite Avv, Bvv, Kgi, Kbj, Kbi, Kgj by assumption. rewrite FuncProduct.LH_S. ring. }
  destruct (rmapM_seq (fun i => rmapM (fun j => pe_hess v gs hs av ag ah i j) (seq 0 (Datatypes.S i))) (fun i row => length row = Datatypes.S i /\ forall j, (j <= i)%nat -> mc (SH (sX i) (sX j) NJ DJ) (nth j row tzero) /\
    forall x y n d, at_shape (SH (sX i) (sX j) NJ DJ) x y n d -> get (vden (nth j row tzero)) x y n d = FuncProduct.LH (Vk n d) (Gk i x n d) (Gk j y n d) (Hk i j x y n d) (Datatypes.S k)) [] (length ss)) as (hs' & Ehs & Lhs & Khs).
  { intros i Hi. destruct (rmapM_seq (fun j => pe_hess v gs hs av ag ah i j) (fun j w => mc (SH (sX i) (sX j) NJ DJ) w /\
      forall x y n d, at_shape (SH (sX i) (sX j) NJ DJ) x y n d -> get (vden w) x y n d = FuncProduct.LH (Vk n d) (Gk i x n d) (Gk j y n d) (Hk i j x y n d) (Datatypes.S k)) tzero (Datatypes.S i)) as (row & Er & Lr & Kr).
    { intros j Hj. apply Eh; [exact Hi|lia]. }
    exists row. split; [exact Er|]. split; [exact Lr|]. intros j Hj. apply Kr. lia. }
  rewrite Ehs. cbn [rbind].
  (* the gradients *)
  match goal with |- context [rmapM ?f (seq 0 (length ss))] => destruct (rmapM_seq f (fun i w => mc (SH (sX i) [] NJ DJ) w /\ forall x n d, In x (indices (sX i)) -> In n (indices NJ) -> In d (indices DJ) ->
    get (vden w) x [] n d = FuncProduct.LG (Vk n d) (Gk i x n d) (Datatypes.S k)) tzero (length ss)) as (gs' & Egs & Lgs & Kgs) end.
  { intros i Hi. pose proof (sG i Hi) as PS. destruct (Ag i Hi) as [Ma Ka]. destruct (Bg i Hi) as [Mb Kb].
    rewrite (rnth_nth ag i tzero) by lia. cbn [rbind]. destruct (pmul _ _ _ _ v _ PS Av Mb) as (w1 & E1 & M1 & K1). rewrite E1. cbn [rbind].
    rewrite (rnth_nth gs i tzero) by lia. cbn [rbind]. destruct (pmul _ _ _ _ av _ PS (or_intror Bv) Ma) as (w2 & E2 & M2 & K2). rewrite E2. cbn [rbind].
    destruct (mc_add _ _ _ PS M1 M2) as (w3 & E3 & M3 & K3). exists w3. split; [exact E3|]. split; [exact M3|].
    intros x n d Hx Hn Hd. rewrite K3, K1, K2 by (repeat split; auto; now left). rewrite Kb, Ka, Avv, Bvv by assumption. now rewrite FuncProduct.LG_S. }
  rewrite Egs. cbn [rbind].
  destruct (pmul _ _ _ _ v av s0 Av Bv) as (v' & Ev & Mv & Kv). rewrite Ev. cbn [rbind]. exists (v', gs', hs'). split; [reflexivity|].
  constructor; cbn [fst snd]; auto.
  - now right.
  - intros n d Hn Hd. unfold pget at 1. rewrite Kv by (repeat split; auto; now left). rewrite Avv by assumption. fold (pget av n d). rewrite Bvv by assumption.
    rewrite seq_S. cbn [plus]. rewrite FuncProduct.Rprod_app. f_equal. rewrite FuncProduct.Rprod_cons. unfold Rprod. cbn. ring.
Qed.
Theorem product_eval_after : exists e, ofold (pe_step (length ps) ps) (map snd az) (PNum 1, repeat tzero (length ps), map (fun i => repeat tzero (Datatypes.S i)) (seq 0 (length ps))) = Ok e /\ after m e.
Proof.
  assert (G : forall l pre e, az = pre ++ l -> after (length pre) e -> exists e', ofold (pe_step (length ps) ps) (map snd l) e = Ok e' /\ after m e').
  { induction l as [|p l IH]; intros pre e E A; cbn [map ofold].
    - exists e. split; [reflexivity|]. rewrite E, app_nil_r. exact A.
    - destruct (step_ok (length pre) e p) as (e1 & E1 & A1); [rewrite E, nth_error_app2, Nat.sub_diag by lia; reflexivity|exact A|]. rewrite E1. cbn [rbind].
      apply (IH (pre ++ (p :: nil)) e1); [rewrite E, <- app_assoc; reflexivity|]. rewrite app_length. cbn [length]. rewrite Nat.add_1_r. exact A1. }
  apply (G az [] _ eq_refl). exact after_0.
Qed.
End At.
End PE.

(** the factors of a Product of objects with an eval *)
Record efactors (ss : list pst) (D : list pval -> Prop) (ats : list eatom) : Prop := mkEFactors {
  ef_pos : Forall (fun s => posl (flat s)) ss;
  ef_ne : ats <> [];
  ef_bc : broadcastable (map ea_o ats);
  ef_ns : flat (join (map ea_o ats)) <> [];
  ef_dr : Forall (fun a => DR (snd (ea_o a)) (snd (join (map ea_o ats)))) ats;
  ef_mf : Forall (fun a => forall f, In f (ea_mf a) -> nth f (fst (ea_o a)) 1%nat = nth f (fst (join (map ea_o ats))) 1%nat) ats;
  ef_built : forall a, In a ats -> ebuilt ss (ea_o a) D (ea_mf a) (ea_dep a) (ea_col a) (ea_x a) }.

Theorem product_eval_agrees ss D ats ps : efactors ss D ats -> are_pars ss ps -> D ps -> eval_agrees ss (join (map ea_o ats)) (o_product (map ea_x ats)) ps.
Proof.
  intros [Pss Ne Bc NJ Dr Mf Bt] Ap d.
  destruct (choose_e (fun a s => correct ss (ea_o a) (Dd ss D) s /\ hess_both ss (ea_o a) s /\ refines ss (ea_o a) (Dd ss D) (ea_mf a) (ea_dep a) (ea_col a) (o_f (ea_x a)) s /\ eok ss (ea_o a) (Dd ss D) (ea_mf a) (ea_dep a) (ea_col a) (ea_x a) s) ats) as (l & Fl).
  { intros a Ha. exact (ebuilt_dense _ _ _ _ _ _ _ (Bt a Ha)). }
  pose proof (Forall2_length' _ _ _ Fl) as L. set (az := zip_e ats l).
  assert (Eo : map a_o (map fst az) = map ea_o ats) by (rewrite map_map; apply zip_e_map; auto).
  assert (Ex : map snd az = map ea_x ats) by (apply zip_e_map; auto).
  assert (Et : map a_t (map fst az) = map o_f (map ea_x ats)) by (rewrite !map_map; apply zip_e_map; auto).
  assert (Ca : Forall (fun a => correct ss (a_o a) (Dd ss D) (a_s a)) (map fst az)) by (apply (zip_e_forall' _ _ _ _ Fl); intros a s _ Q; apply Q).
  assert (Ra : Forall (fun a => refines ss (a_o a) (Dd ss D) (a_mf a) (a_dep a) (a_col a) (a_t a) (a_s a)) (map fst az)) by (apply (zip_e_forall' _ _ _ _ Fl); intros a s _ Q; apply Q).
  assert (Ea : Forall (fun p => eok ss (a_o (fst p)) (Dd ss D) (a_mf (fst p)) (a_dep (fst p)) (a_col (fst p)) (snd p) (a_s (fst p))) az) by (apply (zip_e_forall _ _ _ _ Fl); intros a s _ Q; apply Q).
  assert (Nz : map fst az <> []). { intros E. apply Ne. destruct ats; [reflexivity|]. destruct l; [discriminate|]. discriminate E. }
  rewrite <- Eo in Bc, NJ, Dr, Mf |- *.
  assert (H2 : Forall (fun a => DR (snd (a_o a)) (snd (join (map a_o (map fst az))))) (map fst az)) by (apply (zip_e_forall' _ _ _ _ Fl); intros a s Ha _; cbn [eat a_o]; exact (proj1 (Forall_forall _ _) Dr a Ha)).
  assert (H3 : Forall (fun a => forall f, In f (a_mf a) -> nth f (fst (a_o a)) 1%nat = nth f (fst (join (map a_o (map fst az)))) 1%nat) (map fst az)) by (apply (zip_e_forall' _ _ _ _ Fl); intros a s Ha _; cbn [eat a_mf a_o]; exact (proj1 (Forall_forall _ _) Mf a Ha)).
  pose proof (are_pars_prms _ _ Ap) as Pp. pose proof (are_pars_Dd _ _ _ Ap d) as Dp.
  unfold o_product. cbn [o_f o_eval]. rewrite <- Et, <- Ex.
  destruct (product_eval_after ss (Dd ss D) az Pss Nz Bc NJ H2 Ca Ra H3 Ea ps _ Pp Dp) as ([[v gs] hs] & E & [_ Avv Alg Ag Alh Ah]). cbn [fst snd] in *.
  destruct (product_call_mc ss (Dd ss D) (map fst az) Nz Bc NJ H2 Ca Ra H3 ps _ Pp Dp) as (v' & Ev & _ & Kv).
  assert (Lf : length (map a_s (map fst az)) = length az) by (now rewrite !map_length).
  exists v, gs, hs, v'. split; [exact E|]. split; [exact Ev|]. split; [|split; [exact Alg|split; [|split; [exact Alh|split]]]].
  - intros n e Hn He. unfold same_at. rewrite (Kv n e Hn He : get (vden v') [] [] n e = _). rewrite map_length. exact (Avv n e Hn He).
  - intros i Hi. destruct (product_grad_mc ss (Dd ss D) (map fst az) Pss Nz Bc NJ H2 Ca Ra H3 ps _ Pp Dp i Hi) as (g & Eg & _ & Kg). exists g. split; [exact Eg|].
    intros x n e Hx Hn He. unfold same_at. rewrite (nth_indep _ _ tzero) by lia. rewrite (Kg x n e Hx Hn He). unfold FuncProduct.PG. rewrite Lf. apply (proj2 (Ag i Hi)); assumption.
  - intros i Hi. apply Ah. exact Hi.
  - intros i j Hi Hj. destruct (product_hess_mc ss (Dd ss D) (map fst az) Pss Nz Bc NJ H2 Ca Ra H3 ps _ Pp Dp i j Hi Hj) as (h & Eh & _ & Kh). exists h. split; [exact Eh|].
    intros x y n e Hx Hy Hn He. unfold same_at. destruct (Ah i Hi) as [Lr Hr]. rewrite (nth_indep _ _ tzero) by lia.
    assert (I0 : at_shape (SH (flat (nth i ss ([], []))) (flat (nth j ss ([], []))) (fst (join (map a_o (map fst az)))) (snd (join (map a_o (map fst az))))) x y n e) by (repeat split; auto).
    rewrite (Kh x y n e I0). unfold FuncProduct.PH. rewrite Lf. apply (proj2 (Hr j Hj)). exact I0.
Qed.
End ex.
