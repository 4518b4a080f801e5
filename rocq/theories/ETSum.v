(** Sum.eval agrees with the dense function when there is no offset. *)
From Verif Require Import Prelude DenseModel AnalyticSpec DenseProofs NDArray NDProofs TensorModel TensorSpec TensorSpecOps TensorLemmas TensorBasic TensorSum TensorSumMain TensorBin TensorArith TensorShape TensorExpand TensorGeneric TensorGSum TensorDotCore TensorDot TensorUfunc TensorUfuncP FuncModel FuncSpec FTModel FTRep FTRep2 FTRep3 FTVal FTDiag FTRefine FTPrim FTAffine FTWrap FTSum LTModel ETModel ETRefine.
From Verif Require FuncPrim FuncCompose FuncWrapP FuncLemmas FuncAffine FuncSum.
From Coq Require Import Reals Lra.
Import List ListNotations.
Open Scope R_scope.
Lemma get_fold l q x y n d : get (fold_left dadd l q) x y n d = get q x y n d + Rsum (fun t => get t x y n d) l.
Proof. revert q. induction l as [|t l IH]; intros q; cbn [fold_left]. - rewrite Rsum_nil. ring. - rewrite IH, get_dadd, Rsum_cons. ring. Qed.
Lemma posl_bmax x y : posl x -> posl y -> posl (bmax x y).
Proof. revert y. induction x as [|s x IH]; intros [|s' y] H1 H2; cbn [bmax]; auto. inversion H1; inversion H2; subst. constructor; [lia|]. now apply IH. Qed.
Lemma fold_ones os : os <> [] -> broadcastable os -> Forall (fun o => posl (flat o)) os ->
  fold_left FuncSum.jo os (repeat 1%nat (length (fst (join os))), repeat 1%nat (length (snd (join os)))) = join os.
Proof.
  intros Ne B P. destruct os as [|o os]; [contradiction|]. inversion B as [|? ? [B1 B2] _]; subst. inversion P as [|? ? P1 _]; subst.
  unfold join at 3. change (fold_left FuncSum.jo (o :: os) (repeat 1%nat (length (fst (join (o :: os)))), repeat 1%nat (length (snd (join (o :: os))))) = fold_left FuncSum.jo (o :: os) ([], [])).
  cbn [fold_left]. f_equal. rewrite FuncSum.jo_nil. apply jo_unit_l; cbn [fst snd]; rewrite ?repeat_length; auto; try (symmetry; now apply FuncLemmas.ax_le_length).
  unfold unit_axes, flat. cbn [fst snd]. apply Forall_app. split; apply Forall_forall; intros s Hs; now apply repeat_spec in Hs.
Qed.
Section ex.
Context {ex : exdims}.
Section SumE.
Context (ss : list pst) (D : list dt -> Prop) (az : list (atom * tobj)).
Notation ats := (map fst az).
Notation J := (join (map a_o ats)).
Hypothesis Pss : Forall (fun s => posl (flat s)) ss.
Hypothesis Ne : ats <> [].
Hypothesis Hw : Forall (fun a => a_w a <> 0) ats.
Hypothesis Bc : broadcastable (map a_o ats).
Hypothesis NJ : flat J <> [].
Hypothesis Dr : Forall (fun a => DR (snd (a_o a)) (snd J)) ats.
Hypothesis Wf : Forall (fun a => wellformed ss (a_o a) (a_s a)) ats.
Hypothesis Rf : Forall (fun a => refines ss (a_o a) D (a_mf a) (a_dep a) (a_col a) (a_t a) (a_s a)) ats.
Hypothesis Mf : Forall (fun a => forall f, In f (a_mf a) -> nth f (fst (a_o a)) 1%nat = nth f (fst J) 1%nat) ats.
Hypothesis Ef : Forall (fun p => eok ss (a_o (fst p)) D (a_mf (fst p)) (a_dep (fst p)) (a_col (fst p)) (snd p) (a_s (fst p))) az.
Notation pJ := (posJ ss D ats Rf).
Notation sm := (smf ats).

Section At.
Context (ps : list pval) (qs : list dt).
Hypothesis Pp : prms ss ps qs.
Hypothesis d0 : D qs.
Notation Hs := (proj1 (proj2 Pp)).
Notation n := (length ss).
Notation sX i := (flat (nth i ss ([], []))).
(** the running totals *)
Record tot (c : bool) (A : pst) (q : dt) (bg : nat -> bool) (TG : nat -> table) (TH : nat -> nat -> table) (e : evalP) : Prop := mkTot {
  tt_v : vrel c A (fst (fst e)) q; tt_st : has_st q A; tt_a1 : ax_le (fst A) (fst J); tt_a2 : ax_le (snd A) (snd J); tt_p : posl (flat A);
  tt_lg : length (snd (fst e)) = n; tt_lh : length (snd e) = n;
  tt_g : forall i, (i < n)%nat -> rep (bg i) (Qm sm) (SH (sX i) [] (fst J) (snd J)) (nth i (snd (fst e)) tzero) (TG i);
  tt_h : forall i, (i < n)%nat -> length (nth i (snd e) []) = Datatypes.S i /\
    forall j, (j <= i)%nat -> rep false (Qm sm) (SH (sX i) (sX j) (fst J) (snd J)) (nth j (nth i (snd e) []) tzero) (TH i j) }.
Definition Qa (a : atom) : dt := dscal (a_w a) (val (f_call (a_s a) qs)).
Definition Tg (a : atom) (i : nat) : table := fun x y m d => a_w a * get (val (f_grad (a_s a) qs i)) x y m d.
Definition Th (a : atom) (i j : nat) : table := fun x y m d => a_w a * get (val (f_hess (a_s a) qs i j)) x y m d.
Lemma posX i : (i < n)%nat -> posl (sX i).
Proof. intros Hi. exact (proj1 (Forall_forall _ _) Pss _ (nth_In _ _ Hi)). Qed.
(** a weighted derivative of an atom, on the axes of the sum *)
Lemma grow a nz X Y v g : In a ats -> tst X Y (a_o a) g -> rep nz (Qm (a_mf a)) (SH X Y (fst (a_o a)) (snd (a_o a))) v (get g) ->
  exists u, py OMul (PNum (a_w a)) v = Ok u /\ rep nz (Qm sm) (SH X Y (fst J) (snd J)) u (fun x y m d => a_w a * get g x y m d).
Proof.
  intros Ha Tt R. destruct (ain ss D ats Hw Bc Wf Rf Mf a Ha) as (W0 & A1 & A2 & Wa & Ra & Ma). destruct (rscale _ _ _ _ _ (a_w a) W0 R) as (u & Eu & Ru). exists u. split; [exact Eu|].
  apply (rep_weaken _ (Qm (a_mf a))); [intros p q Hq f Hf; unfold smf; apply in_flat_map; exists a; split; [exact Ha|now apply Hq]|].
  eapply (rep_grow nz (a_mf a) X Y (a_o a) J u); eauto; [exact (proj1 (Forall_forall _ _) Dr a Ha)|]. intros x y m d. now rewrite (FuncSum.tst_clamp_nd X Y (a_o a) g x y m d Tt).
Qed.
Lemma sstep_ok p c A q bg TG TH e : In p az -> tot c A q bg TG TH e -> exists e', sstep n ps e (a_w (fst p), snd p) = Ok e' /\
  tot (c && a_col (fst p)) (FuncSum.jo A (a_o (fst p))) (dadd q (Qa (fst p))) (fun i => bg i || a_dep (fst p) i)
      (fun i x y m d => TG i x y m d + Tg (fst p) i x y m d) (fun i j x y m d => TH i j x y m d + Th (fst p) i j x y m d) e'.
Proof.
  intros Hp T. destruct p as [a ob]. cbn [fst snd]. assert (Ha : In a ats) by (apply (in_map fst az (a, ob)); exact Hp).
  destruct (ain ss D ats Hw Bc Wf Rf Mf a Ha) as (W0 & O1 & O2 & Wa & Ra & Ma). pose proof (proj1 (Forall_forall _ _) Ef _ Hp ps qs Pp d0) as ([[av ag] ah] & Ee & Va & Lag & Lah & Ga & Hh). cbn [fst snd] in *.
  destruct e as [[v gs] hs]. destruct T as [Tv Ts T1 T2 TP Lg Lh G H]. cbn [fst snd] in *. unfold sstep. rewrite Ee. cbn [rbind].
  pose proof (rf_pos _ _ _ _ _ _ _ _ Ra) as PO. assert (HQ : has_st (Qa a) (a_o a)) by (exact (FuncAffine.call_st Wa qs Hs)).
  destruct (vrel_scale _ _ av _ (a_w a) PO W0 (FuncAffine.call_st Wa qs Hs) Va) as (x & Ex & Vx). rewrite Ex. cbn [rbind].
  destruct (vadd c (a_col a) A (a_o a) v x q (Qa a) J T1 T2 O1 O2 NJ TP PO Ts HQ Tv Vx) as (v' & Ev' & Vv'). rewrite Ev'. cbn [rbind].
  pose proof pJ as PJ. apply posl_app in PJ as [PJ1 PJ2].
  match goal with |- context [rmapM ?f (seq 0 n)] => destruct (rmapM_seq f (fun i gr => rep (bg i || a_dep a i) (Qm sm) (SH (sX i) [] (fst J) (snd J)) (fst gr) (fun x y m d => TG i x y m d + Tg a i x y m d) /\
      length (snd gr) = Datatypes.S i /\ forall j, (j <= i)%nat -> rep false (Qm sm) (SH (sX i) (sX j) (fst J) (snd J)) (nth j (snd gr) tzero) (fun x y m d => TH i j x y m d + Th a i j x y m d)) (tzero, []) n) as (rows & Er & Lr & Vr) end.
  { intros i Hi. pose proof (posX i Hi) as Pi. rewrite (rnth_nth gs i tzero), (rnth_nth ag i tzero) by lia. cbn [rbind].
    destruct (grow a (a_dep a i) (sX i) [] (nth i ag tzero) _ Ha (FuncAffine.grad_tst Wa qs i Hs Hi) (Ga i Hi)) as (u & Eu & U). rewrite Eu. cbn [rbind].
    destruct (radd (bg i) (a_dep a i) (Qm sm) (SH (sX i) [] (fst J) (snd J)) (nth i gs tzero) u (TG i) _ ltac:(repeat split; auto; constructor) NJ (G i Hi) U) as (g' & Eg' & Rg'). rewrite Eg'. cbn [rbind].
    destruct (H i Hi) as [Lrow Hrow]. destruct (Hh i Hi) as [Larow Harow].
    match goal with |- context [rmapM ?f (seq 0 (Datatypes.S i))] => destruct (rmapM_seq f (fun j h => rep false (Qm sm) (SH (sX i) (sX j) (fst J) (snd J)) h (fun x y m d => TH i j x y m d + Th a i j x y m d)) tzero (Datatypes.S i)) as (row & Ew & Lw & Vw) end.
    - intros j Hj. assert (Hj1 : (j <= i)%nat) by lia. rewrite (rnth2_nth hs i j tzero), (rnth2_nth ah i j tzero) by lia. cbn [rbind].
      destruct (grow a false (sX i) (sX j) _ _ Ha (FuncAffine.hess_tst Wa qs i j Hs Hi Hj1) (Harow j Hj1)) as (z & Ez & Z). rewrite Ez. cbn [rbind].
      destruct (radd false false (Qm sm) (SH (sX i) (sX j) (fst J) (snd J)) _ z (TH i j) _ ltac:(repeat split; auto; apply posX; lia) NJ (Hrow j Hj1) Z) as (h' & Eh' & Rh'). eauto.
    - rewrite Ew. cbn [rbind]. exists (g', row). cbn [fst snd]. split; [reflexivity|]. split; [exact Rg'|]. split; [exact Lw|]. intros j Hj. apply Vw. lia. }
  rewrite Er. cbn [rbind]. eexists. split; [reflexivity|]. constructor; cbn [fst snd].
  - exact Vv'.
  - now apply FuncSum.has_st_dadd.
  - now apply FuncLemmas.ax_le_bmax.
  - now apply FuncLemmas.ax_le_bmax.
  - apply posl_app in TP as [? ?]. apply posl_app in PO as [? ?]. apply Forall_app. split; now apply posl_bmax.
  - now rewrite map_length.
  - now rewrite map_length.
  - intros i Hi. change tzero with (fst (tzero, @nil pval)). rewrite map_nth. apply (Vr i Hi).
  - intros i Hi. change (@nil pval) with (snd (tzero, @nil pval)) at 1 2. rewrite map_nth. apply (Vr i Hi).
Qed.
Lemma sloop l : forall c A q bg TG TH e, incl l az -> tot c A q bg TG TH e -> exists e', ofold (sstep n ps) (map (fun p => (a_w (fst p), snd p)) l) e = Ok e' /\
  tot (c && forallb a_col (map fst l)) (fold_left FuncSum.jo (map a_o (map fst l)) A) (fold_left dadd (map Qa (map fst l)) q) (fun i => bg i || existsb (fun a => a_dep a i) (map fst l))
      (fun i x y m d => TG i x y m d + Rsum (fun a => Tg a i x y m d) (map fst l)) (fun i j x y m d => TH i j x y m d + Rsum (fun a => Th a i j x y m d) (map fst l)) e'.
Proof.
  induction l as [|p l IH]; intros c A q bg TG TH e Hl T.
  - exists e. split; [reflexivity|]. destruct T as [T1 T2 T3 T4 T5 T6 T7 T8 T9]. constructor; auto; cbn [map forallb fold_left existsb].
    + now rewrite andb_true_r.
    + intros i Hi. rewrite orb_false_r. eapply rep_ext; [apply T8; exact Hi|]. intros x y m d _. rewrite Rsum_nil. ring.
    + intros i Hi. destruct (T9 i Hi) as [L9 R9]. split; [exact L9|]. intros j Hj. eapply rep_ext; [apply R9; exact Hj|]. intros x y m d _. rewrite Rsum_nil. ring.
  - destruct (sstep_ok p c A q bg TG TH e) as (e1 & E1 & T1); [apply Hl; now left|exact T|]. cbn [map ofold]. rewrite E1. cbn [rbind].
    destruct (IH _ _ _ _ _ _ e1 (fun z Hz => Hl z (or_intror Hz)) T1) as (e' & E' & T'). exists e'. split; [exact E'|].
    destruct T' as [t1 t2 t3 t4 t5 t6 t7 t8 t9]. constructor; auto; cbn [map forallb fold_left existsb].
    + now rewrite andb_assoc.
    + intros i Hi. rewrite orb_assoc. eapply rep_ext; [apply t8; exact Hi|]. intros x y m d _. rewrite Rsum_cons. ring.
    + intros i Hi. destruct (t9 i Hi) as [L9 R9]. split; [exact L9|]. intros j Hj. eapply rep_ext; [apply R9; exact Hj|]. intros x y m d _. rewrite Rsum_cons. ring.
Qed.
(** the start: Tensor(0) everywhere *)
Definition A0 : pst := (repeat 1%nat (length (fst J)), repeat 1%nat (length (snd J))).
Definition q0 : dt := DT [] [] (fst A0) (snd A0) (fun _ _ _ _ => 0).
Lemma A0_unit : unit_axes A0.
Proof. unfold unit_axes, flat, A0. cbn [fst snd]. apply Forall_app. split; apply Forall_forall; intros s Hs1; now apply repeat_spec in Hs1. Qed.
Lemma A0_pos : posl (flat A0).
Proof. eapply Forall_impl; [|exact A0_unit]. cbn. intros; lia. Qed.
Lemma ones_le s : posl s -> ax_le (repeat 1%nat (length s)) s.
Proof. induction s as [|a s IH]; intros P; [constructor|]. cbn [length repeat]. inversion P; subst. constructor; [right; split; [reflexivity|lia]|now apply IH]. Qed.
Lemma tot0 : tot true A0 q0 (fun _ => false) (fun _ _ _ _ _ => 0) (fun _ _ _ _ _ _ => 0) (tzero, repeat tzero n, map (fun i => repeat tzero (Datatypes.S i)) (seq 0 n)).
Proof.
  pose proof pJ as PJ. apply posl_app in PJ as [PJ1 PJ2]. constructor; cbn [fst snd].
  - left. split; [reflexivity|]. split; [exact A0_unit|]. split; [exists (tnum 0); repeat split|]. intros i _. reflexivity.
  - repeat split.
  - now apply ones_le.
  - now apply ones_le.
  - exact A0_pos.
  - apply repeat_length.
  - now rewrite map_length, seq_length.
  - intros i _. rewrite nth_repeat. apply rep_tzero. intros x y m d _. reflexivity.
  - intros i Hi. rewrite (nth_indep _ [] (repeat tzero 1)) by (now rewrite map_length, seq_length). rewrite (map_nth (fun i => repeat tzero (Datatypes.S i)) (seq 0 n) 0%nat i), seq_nth by exact Hi. rewrite Nat.add_0_l.
    split; [apply repeat_length|]. intros j _. rewrite nth_repeat. apply rep_tzero. intros x y m d _. reflexivity.
Qed.
End At.
Theorem sum_eok : eok ss J D sm (fun i => existsb (fun a => a_dep a i) ats) (forallb a_col ats) (o_sum (map (fun p => (a_w (fst p), snd p)) az) 0) (s_sum (sats ats) 0).
Proof.
  intros ps qs Pp d0. pose proof (proj1 (proj2 Pp)) as Hs. cbn [o_sum o_eval]. unfold sum_evalP. rewrite (proj1 Pp).
  destruct (sloop ps qs Pp d0 az _ _ _ _ _ _ _ (incl_refl az) tot0) as ([[v gs] hs] & E & [Tv Ts _ _ _ Lg Lh G H]). cbn [fst snd orb andb] in *. exists (v, gs, hs). split; [exact E|].
  pose proof (wf_sats ss ats Wf) as WS. split; [|split; [exact Lg|split; [exact Lh|split]]].
  - rewrite (FuncSum.sum_call ss (sats ats) 0 (map a_o ats) WS Bc qs Hs). cbn [val].
    assert (EJ : fold_left FuncSum.jo (map a_o ats) A0 = J).
    { apply fold_ones; [intros E0; apply map_eq_nil in E0; contradiction|exact Bc|]. apply Forall_map. eapply Forall_impl; [|exact Rf]. intros a Ra. exact (rf_pos _ _ _ _ _ _ _ _ Ra). }
    rewrite EJ in Tv, Ts. eapply vrel_ext; [|exact Tv]. intros i Hi.
    assert (S2 : has_st (dshift (dsum (FuncSum.terms (sats ats) (fun a => f_call a qs))) 0) J).
    { pose proof (FuncAffine.call_st (FuncSum.sum_wf ss (sats ats) 0 (map a_o ats) WS Bc) qs Hs) as H0. rewrite (FuncSum.sum_call ss (sats ats) 0 (map a_o ats) WS Bc qs Hs) in H0. exact H0. }
    apply (has_st_parr _ _ J); auto. intros m d _ _. rewrite get_fold, get_dshift, FuncSum.get_terms. change (get q0 [] [] m d) with 0. rewrite Rplus_0_l, Rplus_0_r.
    unfold sats. rewrite !Rsum_map. apply Rsum_ext. intros a _. unfold Qa. rewrite get_dscal. reflexivity.
  - intros i Hi. rewrite (FuncSum.sum_grad ss (sats ats) 0 (map a_o ats) WS Bc qs i Hs Hi). cbn [val]. eapply rep_ext; [exact (G i Hi)|]. intros x y m d _.
    rewrite FuncSum.get_terms, Rplus_0_l. unfold sats. rewrite !Rsum_map. reflexivity.
  - intros i Hi. destruct (H i Hi) as [Lr Hr]. split; [exact Lr|]. intros j Hj. rewrite (FuncSum.sum_hess ss (sats ats) 0 (map a_o ats) WS Bc qs i j Hs Hi Hj). cbn [val]. eapply rep_ext; [exact (Hr j Hj)|].
    intros x y m d _. rewrite FuncSum.get_terms, Rplus_0_l. unfold sats. rewrite !Rsum_map. reflexivity.
Qed.
End SumE.
End ex.
