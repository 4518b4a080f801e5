(** The objective, its flat gradient and Hessian: main results. *)
From Verif Require Import Prelude DenseModel AnalyticSpec DenseProofs NDArray NDProofs TensorModel TensorSpec TensorSpecOps TensorLemmas TensorBasic TensorBin TensorArith TensorGeneric TensorGSum TensorUfunc FuncModel FuncSpec FTModel FTSpec FTBuilt LTModel LTCell LTSpec LTLik LTDer ParamModel ParamProofs AssembleModel AssembleSpec OTModel OTSpec OTBlock OTFlat OTSim OTSim2 OTSim3 OTForm OTCurve OTMain.
From Verif Require AssembleProofs FuncPrim LTPlain.
From Coquelicot Require Import Coquelicot.
From Coq Require Import Reals Lra Sorted.
Import List ListNotations.
Open Scope R_scope.

Lemma blk0_float v B : blk [] [] v B -> exists t, v = PT t /\ wf t /\ xm t = [] /\ ym t = [] /\ shape_of (den t) = SH [] [] [] [] /\ shp (tv t) = [] /\ el (tv t) [] = B [] [].
Proof.
  intros (t & -> & W & M1 & M2 & Sh & V). destruct (blk_shp [] [] t W M1 M2 Sh) as (S1 & S2 & S3 & S4 & Ss). exists t. repeat (split; [assumption || reflexivity|]). rewrite <- (V [] []) by (now left). unfold den. cbn [at_]. rewrite M1, M2. cbn. ring.
Qed.
Lemma div_scalar g n G c : blk [] [] g (fun _ _ => G) -> blk [] [] n (fun _ _ => c) -> (c <> 0 -> exists w, py ODiv g n = Ok w /\ pyfloat w = Ok (G / c)) /\ (c = 0 -> py ODiv g n = Raise ZeroDivisionError).
Proof.
  intros Bg Bn. destruct (blk0_float _ _ Bg) as (t & -> & W & M1 & M2 & Sh & Ss & V). destruct (blk0_float _ _ Bn) as (t' & -> & _ & _ & _ & _ & Ss' & V').
  assert (E : py ODiv (PT t) (PT t') = rmap PT (tbin_num t c DIV)).
  { cbn [py]. unfold tbin, tbin_t. rewrite Ss'. cbn. rewrite V'. destruct (tbin_num t c DIV); reflexivity. }
  split.
  - intros Hc. rewrite E. unfold tbin_num. destruct (Req_EM_T c 0); [contradiction|]. destruct (Req_EM_T c 1) as [->|N1].
    + exists (PT t). split; [reflexivity|]. cbn [pyfloat]. unfold tfloat. rewrite Ss, V. f_equal. field.
    + cbn [additive]. destruct W as [Wd Wp Wx Wy]. unfold ndim in Wd. rewrite Ss in Wd. cbn in Wd. unfold Tensor, ndim. cbn [np_map shp]. rewrite Ss. replace (Nat.ltb (length []) (xd t + yd t + dm t)) with false by (symmetry; apply Nat.ltb_ge; cbn; lia).
      eexists. split; [reflexivity|]. cbn [pyfloat]. unfold tfloat. cbn [tv np_map shp el]. rewrite Ss, V. reflexivity.
  - intros ->. rewrite E, tbin_div_zero. reflexivity.
Qed.
Section main.
Variable params : list (param R).
Hypothesis PO : params_ok params.
Notation ss := (axes params).
Notation ps := (map arr_of params).
Variables (D : list pval -> Prop) (m : mlobj) (like : list pval -> R) (cons regs : list term).
Hypothesis M : ml_object ss D m like cons regs.

Lemma sub_regs_ok : forall rs g G, blk [] [] g (fun _ _ => G) -> Forall (reg_at params) rs ->
  exists w, sub_regs ps g (map registration rs) = Ok w /\ blk [] [] w (fun _ _ => G - Rsum (term_at ps) rs).
Proof.
  induction rs as [|c rs IH]; intros g G Bg Hr.
  - exists g. split; [reflexivity|]. eapply blk_ext; [|exact Bg]. intros. cbn. ring.
  - inversion Hr as [|? ? C Hr']; subst. pose proof C as ((Ne & _ & Hm) & Cn & Dc). cbn [map]. unfold registration at 1. cbn [sub_regs]. rewrite args_at_ok by exact Hm. cbn [rbind]. fold (argc params c).
    pose proof (pn_value _ _ _ _ Cn (argc params c)) as B. specialize (B ltac:(now apply sub_are; [apply params_are|]) Dc). pose proof B as (t & Et & _). rewrite Et. cbn [rbind].
    rewrite Et in B. apply block_blk in B; [|constructor|constructor]. destruct (blk_same OSub [] [] g (PT t) _ _ (or_intror eq_refl) Bg B) as (w & Ew & Bw). rewrite Ew. cbn [rbind].
    destruct (IH w (G - term_at ps c)) as (w' & Ew' & Bw'); [exact Bw|exact Hr'|]. exists w'. split; [exact Ew'|]. eapply blk_ext; [|exact Bw']. intros. rewrite Rsum_cons. ring.
Qed.
Lemma objective_ok dat : D ps -> posl (flat dat) -> flat dat <> [] -> is_data dat (m_N m) -> let total := over dat (cell (m_N m)) in
  (total <> 0 -> objective m params = Ok (penalized like regs ps / total)) /\ (total = 0 -> objective m params = Raise ZeroDivisionError).
Proof.
  intros Dp Pd Nd HN total. unfold objective, objective_at. pose proof (lr_value _ _ _ _ _ (mo_like _ _ _ _ _ _ M) ps (params_are params PO) Dp) as B. cbn [loglik t_call] in B.
  destruct (t_call (m_model m) ps) as [y|]; [|destruct B as (t & E & _); discriminate]. cbn [rbind] in B |- *. pose proof B as (t & Et & _). rewrite Et in B |- *. cbn [rbind]. apply block_blk in B; [|constructor|constructor].
  rewrite (mo_reg _ _ _ _ _ _ M). destruct (sub_regs_ok regs (PT t) (like ps) B (mo_reg_at params PO _ _ _ _ _ M Dp)) as (w & Ew & Bw). rewrite Ew. cbn [rbind].
  destruct (pl_ssum dat Pd Nd (m_N m) (cell (m_N m)) (data_pl dat _ HN)) as (v & Ev & Bv). rewrite Ev. cbn [rbind]. destruct (div_scalar w v _ _ Bw Bv) as [H1 H2]. change (tot dat (cell (m_N m))) with total in *. split; intros Ht.
  - destruct (H1 Ht) as (q & Eq & Fq). rewrite Eq. cbn [rbind]. exact Fq.
  - rewrite (H2 Ht). reflexivity.
Qed.

Hypothesis Ins : inside D params.
Notation nf := (length (free_coords params)).
Notation nc := (length cons).
Notation LL := (loglik (m_est m) (m_model m)).

Lemma nth_maps {X Y} (f : X -> R) (g : Y -> R) l l' k : nth k (map f l ++ map g l') 0 =
  match nth_error l k with Some x => f x | None => match nth_error l' (k - length l) with Some y => g y | None => 0 end end.
Proof.
  destruct (nth_error l k) as [x|] eqn:E.
  - pose proof (nth_error_lt _ _ _ E) as L. rewrite app_nth1 by (now rewrite map_length). apply nth_error_nth. now rewrite nth_error_map, E.
  - apply nth_error_None in E. rewrite app_nth2 by (now rewrite map_length). rewrite map_length. destruct (nth_error l' (k - length l)) as [y|] eqn:E'.
    + apply nth_error_nth. now rewrite nth_error_map, E'.
    + apply nth_error_None in E'. apply nth_overflow. now rewrite map_length.
Qed.
Lemma coord_in k i a : nth_error (free_coords params) k = Some (i, a) -> (i < length params)%nat /\ (a < size_of params i)%nat.
Proof. intros E. apply nth_error_In in E. now apply AssembleProofs.in_free_coords in E. Qed.

Lemma flat_grad_ok : exists G, flat_grad_t m params = Ok G /\ length G = (nf + nc)%nat /\
  (forall k i a, nth_error (free_coords params) k = Some (i, a) ->
     is_derive (fun t => penalized like regs (map arr_of (set_entry params i a t))) (entry_of params i a) (nth k G 0)) /\
  (forall k c, nth_error cons k = Some c -> nth (nf + k) G 0 = term_at ps c).
Proof.
  rewrite (flat_grad_form params PO D m like cons regs M (proj1 Ins)). eexists. split; [reflexivity|]. split; [now rewrite app_length, !map_length|]. split.
  - intros k i a E. rewrite nth_maps, E. destruct (coord_in k i a E) as [Hi Ha]. apply (penalized_derive params PO D m like cons regs M Ins i a Hi Ha).
  - intros k c E. rewrite nth_maps. replace (nth_error (free_coords params) (nf + k)) with (@None (nat * nat)) by (symmetry; apply nth_error_None; lia). replace (nf + k - nf)%nat with k by lia. now rewrite E.
Qed.

Definition hess_at (k l : nat) : R :=
  match nth_error (free_coords params) k, nth_error (free_coords params) l with
  | Some ia, Some jb => full_entry params LL regs ia jb
  | Some ia, None => match nth_error cons (l - nf) with Some c => con_der ps c (fst ia) (ipos params (fst ia) (snd ia)) | None => 0 end
  | None, Some jb => match nth_error cons (k - nf) with Some c => con_der ps c (fst jb) (ipos params (fst jb) (snd jb)) | None => 0 end
  | None, None => 0
  end.
Lemma hess_rows : exists H, flat_hess_t m params = Ok H /\ length H = (nf + nc)%nat /\ (forall k, (k < nf + nc)%nat -> length (nth k H []) = (nf + nc)%nat) /\
  forall k l, (k < nf + nc)%nat -> (l < nf + nc)%nat -> nth l (nth k H []) 0 = hess_at k l.
Proof.
  rewrite (flat_hess_form params PO D m like cons regs M (proj1 Ins)). eexists. split; [reflexivity|]. split; [now rewrite app_length, !map_length|].
  set (Hm := map _ (free_coords params) ++ _).
  assert (Row : forall k, (k < nf + nc)%nat -> nth k Hm [] = match nth_error (free_coords params) k with
     | Some ia => map (full_entry params LL regs ia) (free_coords params) ++ map (fun c => con_der ps c (fst ia) (ipos params (fst ia) (snd ia))) cons
     | None => match nth_error cons (k - nf) with Some c => map (fun jb => con_der ps c (fst jb) (ipos params (fst jb) (snd jb))) (free_coords params) ++ map (fun _ => 0) cons | None => [] end end).
  { intros k Hk. unfold Hm. destruct (nth_error (free_coords params) k) as [ia|] eqn:E.
    - pose proof (nth_error_lt _ _ _ E) as L. rewrite app_nth1 by (now rewrite map_length). apply nth_error_nth. now rewrite nth_error_map, E.
    - apply nth_error_None in E. rewrite app_nth2 by (now rewrite map_length). rewrite map_length. destruct (nth_error cons (k - nf)) as [c|] eqn:E'; [|apply nth_error_None in E'; lia].
      apply nth_error_nth. rewrite nth_error_map, E'. cbn [option_map]. do 2 f_equal. clear. induction cons; cbn; congruence. }
  split.
  - intros k Hk. rewrite Row by exact Hk. destruct (nth_error (free_coords params) k) as [ia|] eqn:E; [now rewrite app_length, !map_length|]. apply nth_error_None in E.
    destruct (nth_error cons (k - nf)) as [c|] eqn:E'; [now rewrite app_length, !map_length|apply nth_error_None in E'; lia].
  - intros k l Hk Hl. rewrite Row by exact Hk. unfold hess_at. destruct (nth_error (free_coords params) k) as [ia|] eqn:E.
    + rewrite nth_maps. reflexivity.
    + apply nth_error_None in E. destruct (nth_error cons (k - nf)) as [c|] eqn:E'; [|apply nth_error_None in E'; lia]. rewrite nth_maps. destruct (nth_error (free_coords params) l); [reflexivity|]. destruct (nth_error cons (l - nf)); reflexivity.
Qed.
Lemma full_entry_sym ia jb : In ia (free_coords params) -> In jb (free_coords params) -> full_entry params LL regs ia jb = full_entry params LL regs jb ia.
Proof.
  destruct ia as [i a], jb as [j b]. intros H1 H2. apply AssembleProofs.in_free_coords in H1 as [Hi Ha]. apply AssembleProofs.in_free_coords in H2 as [Hj Hb].
  unfold full_entry at 1 2. destruct (Nat.ltb_spec j i) as [H|H], (Nat.ltb_spec i j) as [H'|H']; try reflexivity; [lia|]. assert (E : i = j) by lia. subst j.
  unfold hess_entry. f_equal.
  - apply (tc_sym _ _ _ _ (lr_derivatives _ _ _ _ _ (mo_like _ _ _ _ _ _ M))); [now apply params_are|apply Ins|now rewrite axes_len|now apply pos_in|now apply pos_in|now left|now left].
  - apply Rsum_ext. intros r Hr. apply Rsum_ext. intros [p q] Hpq. apply in_occ2 in Hpq as (Hpq & E1 & E2). cbn [fst snd].
    destruct (term_facts params PO D m like cons regs M Ins i a Hi Ha r (in_or_app _ _ _ (or_intror Hr))) as (St & F & Dr & _).
    assert (E : q = p) by (destruct (Nat.eq_dec q p) as [?|N]; [assumption|]; pose proof (OTCurve.sorted_nth _ St q p ltac:(lia)); lia). subst q.
    pose proof (tc_sym _ _ _ _ (pn_derivatives _ _ _ _ (mo_regs _ _ _ _ _ _ M r Hr)) (argt ps r) p (ipos params i b) (ipos params i a) [] []) as S. rewrite sub_axes_len, sub_axes_nth, E1 in S by lia. rewrite <- (flat_axes params i) in S.
    apply S; [apply (sub_are params); [now apply params_are|now rewrite <- axes_len]|exact Dr|lia|now apply pos_in|now apply pos_in|now left|now left].
Qed.
Lemma flat_hess_ok : exists H, flat_hess_t m params = Ok H /\ length H = (nf + nc)%nat /\ (forall k, (k < nf + nc)%nat -> length (nth k H []) = (nf + nc)%nat) /\
  (forall k l j b, (k < nf + nc)%nat -> nth_error (free_coords params) l = Some (j, b) ->
     is_derive (fun t => nth k (got [] (flat_grad_t m (set_entry params j b t))) 0) (entry_of params j b) (nth l (nth k H []) 0)) /\
  (forall k l, (k < nf + nc)%nat -> (l < nf + nc)%nat -> nth l (nth k H []) 0 = nth k (nth l H []) 0) /\
  (forall k l, (nf <= k < nf + nc)%nat -> (nf <= l < nf + nc)%nat -> nth l (nth k H []) 0 = 0).
Proof.
  destruct hess_rows as (H & E & L1 & L2 & V). exists H. split; [exact E|]. split; [exact L1|]. split; [exact L2|]. split; [|split].
  - intros k l j b Hk El. destruct (coord_in l j b El) as [Hj Hb]. pose proof (nth_error_lt _ _ _ El) as Ll. rewrite V by lia. unfold hess_at. rewrite El.
    assert (Lg : locally (entry_of params j b) (fun t => (match nth_error (free_coords params) k with
        | Some ia => grad_entry LL regs (map arr_of (set_entry params j b t)) (fst ia) (ipos params (fst ia) (snd ia))
        | None => match nth_error cons (k - nf) with Some c => term_at (map arr_of (set_entry params j b t)) c | None => 0 end end) = nth k (got [] (flat_grad_t m (set_entry params j b t))) 0)).
    { eapply filter_imp; [|exact (near params D Ins j b Hj Hb)]. intros t Dt. pose proof (set_ok params PO j b Hj Hb t) as PO'. pose proof (set_axes params j b Hj t) as Ax.
      rewrite (flat_grad_form (set_entry params j b t) PO' D m like cons regs ltac:(now rewrite Ax) Dt). cbn [got]. rewrite nth_maps, (set_coords params j b Hj t). destruct (nth_error (free_coords params) k) as [ia|]; [|reflexivity]. now rewrite set_pos. }
    eapply is_derive_ext_loc; [exact Lg|]. destruct (nth_error (free_coords params) k) as [[i a]|] eqn:Ek.
    + destruct (coord_in k i a Ek) as [Hi Ha]. cbn [fst snd]. now apply (grad_derive params PO D m like cons regs M Ins j b Hj Hb i a Hi Ha).
    + destruct (nth_error cons (k - nf)) as [c|] eqn:Ec; [|apply @is_derive_const]. cbn [fst snd]. apply (con_derive params PO D m like cons regs M Ins j b Hj Hb c). now apply nth_error_In in Ec.
  - intros k l Hk Hl. rewrite !V by assumption. unfold hess_at. destruct (nth_error (free_coords params) k) as [ia|] eqn:Ek, (nth_error (free_coords params) l) as [jb|] eqn:El; try reflexivity. apply full_entry_sym; eapply nth_error_In; eassumption.
  - intros k l Hk Hl. rewrite V by lia. unfold hess_at. replace (nth_error (free_coords params) k) with (@None (nat * nat)) by (symmetry; apply nth_error_None; lia). replace (nth_error (free_coords params) l) with (@None (nat * nat)) by (symmetry; apply nth_error_None; lia). reflexivity.
Qed.
End main.
