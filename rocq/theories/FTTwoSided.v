(** The model of tests/tests.py:328-349 (test_poisson_sum) with [N] items on both axes:
      f1 = X()(a) - X()(b) + Scalar()(h),  f2 = X()(a) - X()(b) - Scalar()(h),
      F = Exp() @ f1 over the features [0, 1], plus Exp() @ f2 over [1, 0],
      model = Log() @ F.
    [Sum.add] (func_op.py:179-181) takes an Affine apart, so -X() is stored as X() with weight -1. *)
From Verif Require Import Prelude DenseModel AnalyticSpec DenseProofs NDArray NDProofs TensorModel TensorSpec TensorSpecOps TensorLemmas TensorBasic TensorSum TensorSumMain TensorBin TensorArith TensorShape TensorExpand TensorGeneric TensorGSum TensorDotCore TensorDot TensorUfunc TensorUfuncP FuncModel FuncSpec FTModel FTSpec FTRep FTRep2 FTRep3 FTVal FTDiag FTRefine FTPrim FTAffine FTWrap FTSum FTCompose FTBuilt FTValue FTFindings.
From Verif Require FuncPrim FuncCompose FuncWrapP FuncLemmas FuncAffine FuncSum.
From Coq Require Import Reals Lra Sorted.
Import List ListNotations.
Open Scope R_scope.
#[local] Existing Instance loose.

(** reading a value ignores the position along its axes of size 1 *)
Lemma at_clamp ss out D mf dep col f ps n d : tbuilt ss out D mf dep col f -> are_pars ss ps -> D ps ->
  at_res (t_call f ps) [] [] n d = at_res (t_call f ps) [] [] (clamp (fst out) n) (clamp (snd out) d).
Proof.
  intros T Pp d0. destruct (tbuilt_dense _ _ _ _ _ _ _ T) as (sf & C & _ & Rf).
  destruct (rf_call _ _ _ _ _ _ _ _ Rf ps _ (are_pars_prms _ _ Pp) (are_pars_Dd _ _ _ Pp d0)) as (v & Ev & Q). unfold at_res. rewrite Ev. cbn [res0].
  destruct Q as [(_ & _ & Z & _)|(t & -> & P)]; [now rewrite !(zval_get v) by exact Z|].
  destruct P as (_ & _ & _ & P3 & P4 & _). cbn [vden]. unfold get. rewrite P3, P4. now rewrite !clamp_idem.
Qed.

Section TwoSided.
Variable N : nat.
Hypothesis HN : (1 <= N)%nat.
Let V : pst := ((N :: nil), []).
(** a, b and h: tests.py:359-361 *)
Definition sides : list pst := [((N :: nil), []); ((N :: nil), []); ([], [])].
(** tests.py:333, :334, :335 and :343, :344, as the FuncWrap of func_op.py:192-196 *)
Definition wa : wmap := mkW (0 :: nil)%nat (0 :: nil)%nat 2 [] 0 [].
Definition wb : wmap := mkW (1 :: nil)%nat (1 :: nil)%nat 2 [] 0 [].
Definition wh : wmap := mkW (2 :: nil)%nat [] 2 [] 0 [].
Definition wij : wmap := mkW [0; 1; 2]%nat [0; 1]%nat 2 [] 0 [].
Definition wji : wmap := mkW [0; 1; 2]%nat [1; 0]%nat 2 [] 0 [].
(** Sum(2) with the atoms a, -b and [sg] h: tests.py:332-335 ([sg = 1]), 337-340 ([sg = -1]) *)
Definition side_atoms (sg : R) : list tatom :=
  [mkTAtom 1 (t_wrap wa t_X) ([N; 1]%nat, []) (0%nat :: nil) (wdep wa (fun _ => true)) false;
   mkTAtom (-1) (t_wrap wb t_X) ([1; N]%nat, []) (1%nat :: nil) (wdep wb (fun _ => true)) false;
   mkTAtom sg (t_wrap wh t_Scalar) ([1; 1]%nat, []) [] (wdep wh (fun _ => true)) true].
(** tests.py:332-340: the Sum itself *)
Definition side (sg : R) : tfun := t_sum [(1, t_wrap wa t_X); (-1, t_wrap wb t_X); (sg, t_wrap wh t_Scalar)] 0.
(** [Exp() @ f1] and [Exp() @ f2], tests.py:343-344 *)
Definition rate (sg : R) : tfun := t_compose t_Exp (side sg :: nil).
(** F, tests.py:342-344 *)
Definition both_atoms : list tatom :=
  [mkTAtom 1 (t_wrap wij (rate 1)) ([N; N]%nat, []) [0; 1]%nat (wdep wij (fun _ => true)) false;
   mkTAtom 1 (t_wrap wji (rate (-1))) ([N; N]%nat, []) [1; 0]%nat (wdep wji (fun _ => true)) false].
Definition both : tfun := t_sum [(1, t_wrap wij (rate 1)); (1, t_wrap wji (rate (-1)))] 0.
(** [mle.model], tests.py:346 *)
Definition two_sided : tfun := t_compose t_Log (both :: nil).

Lemma sides_pos : Forall (fun s => posl (flat s)) sides.
Proof. repeat constructor; exact HN. Qed.
Lemma side_join h : join (map ta_o (side_atoms h)) = ([N; N]%nat, []).
Proof. unfold join, side_atoms. cbn [map ta_o fold_left fst snd bmax]. repeat f_equal; lia. Qed.
Lemma both_join : join (map ta_o both_atoms) = ([N; N]%nat, []).
Proof. unfold join, both_atoms. cbn [map ta_o fold_left fst snd bmax]. repeat f_equal; lia. Qed.
Lemma side_bc h : broadcastable (map ta_o (side_atoms h)).
Proof.
  unfold broadcastable. rewrite side_join. unfold side_atoms. cbn [map ta_o].
  repeat apply Forall_cons; [| | |apply Forall_nil]; (split; [|constructor]); (constructor; [|constructor; [|constructor]]); cbn; auto.
Qed.
Lemma both_bc : broadcastable (map ta_o both_atoms).
Proof.
  unfold broadcastable. rewrite both_join. unfold both_atoms. cbn [map ta_o].
  repeat apply Forall_cons; [| |apply Forall_nil]; (split; [|constructor]); (constructor; [|constructor; [|constructor]]); cbn; auto.
Qed.
Lemma one_nodup {A} (a : A) : NoDup (a :: nil).
Proof. constructor; [intros []|constructor]. Qed.
Lemma any_dom ss out mf dep col f (m : list pval -> list pval) : tbuilt ss out (fun ps => anyP (m ps)) mf dep col f -> tbuilt ss out anyP mf dep col f.
Proof. intros T. eapply tb_domain; [|exact T]. intros; exact I. Qed.

Lemma X_V : tbuilt (V :: nil) V anyP (0%nat :: nil) (fun _ => true) false t_X.
Proof. apply (tb_X (N :: nil)). repeat constructor; exact HN. Qed.

Lemma side_atoms_built h a : h <> 0 -> In a (side_atoms h) -> tbuilt sides (ta_o a) anyP (ta_mf a) (ta_dep a) (ta_col a) (ta_f a).
Proof.
  intros Hh [<-|[<-|[<-|[]]]]; cbn [ta_o ta_mf ta_dep ta_col ta_f].
  - apply (any_dom _ _ _ _ _ _ (fun ps => map (fun k => nth k ps (PNum 0)) (0%nat :: nil))).
    apply (tb_wrap sides V anyP (0 :: nil)%nat (fun _ => true) false wa t_X).
    + apply one_nodup. + repeat constructor. + constructor; cbn; auto; repeat constructor; auto. + left; repeat constructor. + now left. + apply X_V.
  - apply (any_dom _ _ _ _ _ _ (fun ps => map (fun k => nth k ps (PNum 0)) (1%nat :: nil))).
    apply (tb_wrap sides V anyP (0 :: nil)%nat (fun _ => true) false wb t_X).
    + apply one_nodup. + repeat constructor. + constructor; cbn; auto; repeat constructor; auto. + left; repeat constructor. + now left. + apply X_V.
  - apply (any_dom _ _ _ _ _ _ (fun ps => map (fun k => nth k ps (PNum 0)) (2%nat :: nil))).
    apply (tb_wrap sides ([], []) anyP [] (fun _ => true) false wh t_Scalar).
    + apply one_nodup. + repeat constructor. + constructor; cbn; auto; repeat constructor; auto. + left; repeat constructor. + now left. + apply tb_Scalar.
Qed.
Lemma side_built h : h <> 0 -> tbuilt sides ([N; N]%nat, []) anyP [0; 1]%nat (fun i => existsb (fun a => ta_dep a i) (side_atoms h)) false (side h).
Proof.
  intros Hh. rewrite <- (side_join h). apply (tb_sum sides anyP (side_atoms h) 0).
  - exact sides_pos. - discriminate. - repeat constructor; cbn; auto; lra. - apply side_bc. - rewrite side_join. discriminate.
  - apply loose_dims, side_bc.
  - rewrite side_join. repeat apply Forall_cons; [| | |apply Forall_nil]; cbn; intros f Hf; repeat destruct Hf as [<-|Hf]; try reflexivity; destruct Hf.
  - now left.
  - intros a Ha. now apply (side_atoms_built h).
Qed.
Lemma rate_built h : h <> 0 -> tbuilt sides ([N; N]%nat, []) anyP [0; 1]%nat (fun _ => true) false (rate h).
Proof.
  intros Hh. apply (tb_domain _ _ (fun ps => (forall v, t_call (side h) ps = Ok v -> anyP (v :: nil)) /\ anyP ps)); [intros; split; [intros; exact I|exact I]|].
  apply (tb_compose sides ([N; N]%nat, []) [] anyP anyP [0; 1]%nat (fun i => existsb (fun a => ta_dep a i) (side_atoms h)) t_Exp (side h)).
  - exact sides_pos. - discriminate. - intros [|[|[|i]]] Hi; [reflexivity|reflexivity|reflexivity|cbn in Hi; lia].
  - apply (o_Exp [N; N]). repeat constructor; exact HN.
  - now apply side_built.
Qed.
Lemma wij_ok : FuncLemmas.wmap_ok wij ([N; N]%nat, []).
Proof. constructor; cbn; auto; repeat constructor; auto; cbn; intuition lia. Qed.
Lemma wji_ok : FuncLemmas.wmap_ok wji ([N; N]%nat, []).
Proof. constructor; cbn; auto; repeat constructor; auto; cbn; intuition lia. Qed.
Lemma abc_nodup : NoDup [0; 1; 2]%nat.
Proof. repeat constructor; cbn; intuition lia. Qed.
Lemma both_atoms_built a : In a both_atoms -> tbuilt sides (ta_o a) anyP (ta_mf a) (ta_dep a) (ta_col a) (ta_f a).
Proof.
  intros [<-|[<-|[]]]; cbn [ta_o ta_mf ta_dep ta_col ta_f].
  - apply (any_dom _ _ _ _ _ _ (fun ps => map (fun k => nth k ps (PNum 0)) [0; 1; 2]%nat)).
    apply (tb_wrap sides ([N; N]%nat, []) anyP [0; 1]%nat (fun _ => true) false wij (rate 1)).
    + apply abc_nodup. + repeat constructor. + apply wij_ok. + left; repeat constructor. + now left. + apply (rate_built 1 ltac:(lra)).
  - apply (any_dom _ _ _ _ _ _ (fun ps => map (fun k => nth k ps (PNum 0)) [0; 1; 2]%nat)).
    apply (tb_wrap sides ([N; N]%nat, []) anyP [0; 1]%nat (fun _ => true) false wji (rate (-1))).
    + apply abc_nodup. + repeat constructor. + apply wji_ok. + left; repeat constructor. + now left. + apply (rate_built (-1) ltac:(lra)).
Qed.
Lemma both_diag : Forall (fun a => forall f, In f (ta_mf a) -> nth f (fst (ta_o a)) 1%nat = nth f (fst (join (map ta_o both_atoms))) 1%nat) both_atoms.
Proof. rewrite both_join. repeat apply Forall_cons; [| |apply Forall_nil]; cbn; intros f Hf; repeat destruct Hf as [<-|Hf]; try reflexivity; destruct Hf. Qed.
Lemma both_built : tbuilt sides ([N; N]%nat, []) anyP [0; 1; 1; 0]%nat (fun i => existsb (fun a => ta_dep a i) both_atoms) false both.
Proof.
  rewrite <- both_join. apply (tb_sum sides anyP both_atoms 0).
  - exact sides_pos. - discriminate. - repeat constructor; cbn; lra. - apply both_bc. - rewrite both_join. discriminate.
  - apply loose_dims, both_bc.
  - apply both_diag.
  - now left.
  - exact both_atoms_built.
Qed.

(** *** values *)
Variable args : list pval.
Hypothesis args_par : are_pars sides args.
(** the numbers a_k, b_k and h *)
Notation pa := (nth 0 args (PNum 0)).
Notation pb := (nth 1 args (PNum 0)).
Notation ph := (nth 2 args (PNum 0)).
Notation ua := (fun k : nat => pentry pa (k :: nil)).
Notation ub := (fun k : nat => pentry pb (k :: nil)).
Notation uh := (pentry ph []).
Lemma args_three ps : are_pars sides ps -> map (fun k => nth k ps (PNum 0)) [0; 1; 2]%nat = ps.
Proof. intros F. pose proof (Forall2_length' _ _ _ F) as L. destruct ps as [|a [|b [|c [|]]]]; try discriminate L. reflexivity. Qed.
Lemma pars_of : is_par V pa /\ is_par V pb /\ is_par ([], []) ph.
Proof.
  revert args_par. intros F. rewrite <- (args_three args F) in F. cbn [map] in F. inversion F as [|x1 y1 l1 m1 H1 F1]; subst. inversion F1 as [|x2 y2 l2 m2 H2 F2]; subst. inversion F2 as [|x3 y3 l3 m3 H3 F3]; subst. auto.
Qed.
Lemma ij_in i j : (i < N)%nat -> (j < N)%nat -> In [i; j] (indices [N; N]%nat).
Proof. intros Hi Hj. apply In_indices. constructor; [exact Hi|constructor; [exact Hj|constructor]]. Qed.

Lemma clampN i : (i < N)%nat -> clamp (N :: nil) (i :: nil) = (i :: nil).
Proof. intros Hi. apply clamp_in, In_indices. now repeat constructor. Qed.
Lemma clampiN i : (i < N)%nat -> clampi N i = i.
Proof. intros Hi. unfold clampi. destruct (Nat.leb_spec N 1); lia. Qed.
Lemma X_at p i : is_par V p -> (i < N)%nat -> at_res (t_call t_X (p :: nil)) [] [] (i :: nil) [] = pentry p (i :: nil).
Proof.
  intros Hp Hi. assert (P : are_pars (V :: nil) (p :: nil)) by (constructor; [exact Hp|constructor]).
  destruct (FuncPrim.X_correct (N :: nil)) as [W _ _ _].
  rewrite (call_at (V :: nil) V anyP (seq 0 1) (fun _ => true) false t_X s_X (p :: nil) (i :: nil) []); [| | |exact P|exact I| |now left].
  - unfold s_X, s_entrywise, prim. cbn [map f_call par rnth nth_error rbind val]. rewrite (FuncPrim.get_ufun V (fun v => v) (vden p)) by apply Hp.
    unfold pentry, parr. destruct Hp as [(_ & _ & Hn & _) _]. cbn in Hn. rewrite Hn. reflexivity.
  - exact W.
  - eapply refines_domain; [|apply (X_refines (N :: nil)); repeat constructor; exact HN]. intros; exact I.
  - apply In_indices. now repeat constructor.
Qed.
Lemma scalar_at : at_res (t_call t_Scalar (ph :: nil)) [] [] [] [] = uh.
Proof.
  destruct pars_of as (_ & _ & Hp). assert (P : are_pars (([], []) :: nil) (ph :: nil)) by (constructor; [exact Hp|constructor]).
  destruct (FuncPrim.Scalar_correct) as [W _ _ _].
  rewrite (call_at (([], []) :: nil) ([], []) anyP [] (fun _ => true) false t_Scalar s_Scalar (ph :: nil) [] []); [| | |exact P|exact I|now left|now left].
  - unfold s_Scalar, prim. cbn [map f_call par rnth nth_error rbind val]. rewrite (FuncPrim.get_ufun ([], []) (fun v => v) (vden ph)) by apply Hp.
    unfold pentry, parr. destruct Hp as [(_ & _ & Hn & _) _]. cbn in Hn. rewrite Hn. reflexivity.
  - exact W.
  - eapply refines_domain; [|apply Scalar_refines]. intros; exact I.
Qed.
Definition wrap_any ss o mf dep col w f (Hn : NoDup (w_pm w)) (Hb : Forall (fun i => i < length ss)%nat (w_pm w)) (Hw : FuncLemmas.wmap_ok w o)
  (Ho : StronglySorted lt (w_pm w)) (Hf : w_flip w = []) (T : tbuilt (map (fun k => nth k ss ([], [])) (w_pm w)) o anyP mf dep col f) :=
  any_dom _ _ _ _ _ _ (fun ps => map (fun k => nth k ps (PNum 0)) (w_pm w)) (tb_wrap ss o anyP mf dep col w f Hn Hb Hw (or_introl Ho) (or_introl Hf) T).
Lemma sub_at ss o mf dep col w f ps n : NoDup (w_pm w) -> Forall (fun i => i < length ss)%nat (w_pm w) -> FuncLemmas.wmap_ok w o -> StronglySorted lt (w_pm w) -> w_flip w = [] -> w_dm w = [] ->
  tbuilt (map (fun k => nth k ss ([], [])) (w_pm w)) o anyP mf dep col f -> are_pars ss ps -> snd (FuncLemmas.w_out w o) = [] ->
  forall m, m = clamp (fst (FuncLemmas.w_out w o)) n -> In m (indices (fst (FuncLemmas.w_out w o))) ->
  at_res (t_call (t_wrap w f) ps) [] [] n [] = at_res (t_call f (map (fun k => nth k ps (PNum 0)) (w_pm w))) [] [] (pull (w_fm w) m) [].
Proof.
  intros Hn Hb Hw Ho Hf Hd T Pp E m Em Hm. rewrite (at_clamp ss (FuncLemmas.w_out w o) anyP (wmf w mf) (wdep w dep) (colw col o) _ ps n [] (wrap_any ss o mf dep col w f Hn Hb Hw Ho Hf T) Pp I).
  rewrite <- Em, E. cbn [clamp]. rewrite (value_wrap ss o anyP mf dep col w f ps m [] Hn Hb Hw (or_introl Ho) (or_introl Hf) T Pp I Hm); [|rewrite E; now left].
  rewrite Hf, Hd. reflexivity.
Qed.
Lemma side_at h i j : h <> 0 -> (i < N)%nat -> (j < N)%nat ->
  at_res (t_call (side h) args) [] [] [i; j] [] = ua i - ub j + h * uh.
Proof.
  intros Hh Hi Hj.
  assert (A : at_res (t_call (t_wrap wa t_X) args) [] [] [i; j] [] = ua i).
  { rewrite (sub_at sides V (0 :: nil)%nat (fun _ => true) false wa t_X args [i; j]) with (m := [i; 0]%nat).
    - cbn [w_pm w_fm wa map pull nth]. apply X_at; [apply pars_of|assumption].
    - apply one_nodup. - repeat constructor. - constructor; cbn; auto; repeat constructor; auto. - repeat constructor. - reflexivity. - reflexivity. - apply X_V. - exact args_par. - reflexivity.
    - change ([i; 0]%nat = clampi N i :: 0%nat :: nil). now rewrite clampiN.
    - apply In_indices. constructor; [exact Hi|constructor; [cbn; lia|constructor]]. }
  assert (B : at_res (t_call (t_wrap wb t_X) args) [] [] [i; j] [] = ub j).
  { rewrite (sub_at sides V (0 :: nil)%nat (fun _ => true) false wb t_X args [i; j]) with (m := [0; j]%nat).
    - cbn [w_pm w_fm wb map pull nth]. apply X_at; [apply pars_of|assumption].
    - apply one_nodup. - repeat constructor. - constructor; cbn; auto; repeat constructor; auto. - repeat constructor. - reflexivity. - reflexivity.
    - apply X_V. - exact args_par. - reflexivity.
    - change ([0; j]%nat = 0%nat :: clampi N j :: nil). now rewrite clampiN.
    - apply In_indices. constructor; [cbn; lia|constructor; [exact Hj|constructor]]. }
  assert (C : at_res (t_call (t_wrap wh t_Scalar) args) [] [] [i; j] [] = uh).
  { rewrite (sub_at sides ([], []) [] (fun _ => true) false wh t_Scalar args [i; j]) with (m := [0; 0]%nat).
    - cbn [w_pm w_fm wh map pull]. apply scalar_at.
    - apply one_nodup. - repeat constructor. - constructor; cbn; auto; repeat constructor; auto. - repeat constructor. - reflexivity. - reflexivity. - apply tb_Scalar. - exact args_par. - reflexivity. - reflexivity.
    - apply In_indices. repeat constructor. }
  change (side h) with (t_sum (map (fun a => (ta_w a, ta_f a)) (side_atoms h)) 0). rewrite (value_sum sides anyP (side_atoms h) 0 args [i; j] []).
  - unfold side_atoms. rewrite !Rsum_cons, Rsum_nil. cbn [ta_w ta_f]. rewrite A, B, C. ring.
  - exact sides_pos. - discriminate. - repeat constructor; cbn; auto; lra. - apply side_bc. - rewrite side_join. discriminate.
  - rewrite side_join. repeat apply Forall_cons; [| | |apply Forall_nil]; cbn; intros f Hf; repeat destruct Hf as [<-|Hf]; try reflexivity; destruct Hf.
  - now left. - intros a Ha. now apply (side_atoms_built h). - exact args_par. - exact I.
  - rewrite side_join. now apply ij_in. - rewrite side_join. now left.
Qed.
Lemma rate_at h i j : h <> 0 -> (i < N)%nat -> (j < N)%nat ->
  at_res (t_call (rate h) args) [] [] [i; j] [] = exp (ua i - ub j + h * uh).
Proof.
  intros Hh Hi Hj. destruct (compose_value _ _ _ _ _ t_Exp (side h) _ (side_built h Hh) args_par I) as (w & Ew & Pw & Ec & Vw).
  unfold rate. rewrite Ec. rewrite (value_Exp [N; N] w [i; j]); [|repeat constructor; exact HN|exact Pw|now apply ij_in]. f_equal.
  pose proof (Vw [i; j] [] (ij_in i j Hi Hj) (or_introl eq_refl)) as E. rewrite app_nil_r in E. rewrite E. now apply side_at.
Qed.
Lemma both_at i j : (i < N)%nat -> (j < N)%nat ->
  at_res (t_call both args) [] [] [i; j] [] = exp (ua i - ub j + uh) + exp (ua j - ub i - uh).
Proof.
  intros Hi Hj.
  assert (CL : clamp [N; N] [i; j] = [i; j]) by now apply clamp_in, ij_in.
  assert (A : at_res (t_call (t_wrap wij (rate 1)) args) [] [] [i; j] [] = exp (ua i - ub j + uh)).
  { rewrite (sub_at sides ([N; N]%nat, []) [0; 1]%nat (fun _ => true) false wij (rate 1) args [i; j]) with (m := [i; j]).
    - change (w_pm wij) with [0; 1; 2]%nat. rewrite args_three by exact args_par. change (pull (w_fm wij) [i; j]) with [i; j]. rewrite (rate_at 1) by (assumption || lra). f_equal; ring.
    - apply abc_nodup. - repeat constructor. - apply wij_ok. - repeat constructor. - reflexivity. - reflexivity. - apply (rate_built 1 ltac:(lra)). - exact args_par. - reflexivity.
    - symmetry. exact CL. - now apply ij_in. }
  assert (B : at_res (t_call (t_wrap wji (rate (-1))) args) [] [] [i; j] [] = exp (ua j - ub i - uh)).
  { rewrite (sub_at sides ([N; N]%nat, []) [0; 1]%nat (fun _ => true) false wji (rate (-1)) args [i; j]) with (m := [i; j]).
    - change (w_pm wji) with [0; 1; 2]%nat. rewrite args_three by exact args_par. change (pull (w_fm wji) [i; j]) with [j; i]. rewrite (rate_at (-1)) by (assumption || lra). f_equal; ring.
    - apply abc_nodup. - repeat constructor. - apply wji_ok. - repeat constructor. - reflexivity. - reflexivity. - apply (rate_built (-1) ltac:(lra)). - exact args_par. - reflexivity.
    - symmetry. exact CL. - now apply ij_in. }
  change both with (t_sum (map (fun a => (ta_w a, ta_f a)) both_atoms) 0). rewrite (value_sum sides anyP both_atoms 0 args [i; j] []).
  - unfold both_atoms. rewrite !Rsum_cons, Rsum_nil. cbn [ta_w ta_f]. rewrite A, B. ring.
  - exact sides_pos. - discriminate. - repeat constructor; cbn; lra. - apply both_bc. - rewrite both_join. discriminate.
  - apply both_diag. - now left. - exact both_atoms_built. - exact args_par. - exact I.
  - rewrite both_join. now apply ij_in. - rewrite both_join. now left.
Qed.

(** *** positive, for all parameters *)
Lemma rate_pos h ps n : h <> 0 -> are_pars sides ps -> In n (indices [N; N]%nat) -> 0 < at_res (t_call (rate h) ps) [] [] n [].
Proof.
  intros Hh Pp Hn. destruct (compose_value _ _ _ _ _ t_Exp (side h) _ (side_built h Hh) Pp I) as (w & Ew & Pw & Ec & Vw).
  unfold rate. rewrite Ec. rewrite (value_Exp [N; N] w n); [apply exp_pos|repeat constructor; exact HN|exact Pw|exact Hn].
Qed.
Lemma both_pos ps i j : are_pars sides ps -> (i < N)%nat -> (j < N)%nat -> 0 < at_res (t_call both ps) [] [] [i; j] [].
Proof.
  intros Pp Hi Hj.
  assert (CL : clamp [N; N] [i; j] = [i; j]) by now apply clamp_in, ij_in.
  assert (A : 0 < at_res (t_call (t_wrap wij (rate 1)) ps) [] [] [i; j] []).
  { rewrite (sub_at sides ([N; N]%nat, []) [0; 1]%nat (fun _ => true) false wij (rate 1) ps [i; j]) with (m := [i; j]).
    - change (w_pm wij) with [0; 1; 2]%nat. rewrite args_three by exact Pp. apply rate_pos; [lra|exact Pp|now apply ij_in].
    - apply abc_nodup. - repeat constructor. - apply wij_ok. - repeat constructor. - reflexivity. - reflexivity. - apply (rate_built 1 ltac:(lra)). - exact Pp. - reflexivity.
    - symmetry. exact CL. - now apply ij_in. }
  assert (B : 0 < at_res (t_call (t_wrap wji (rate (-1))) ps) [] [] [i; j] []).
  { rewrite (sub_at sides ([N; N]%nat, []) [0; 1]%nat (fun _ => true) false wji (rate (-1)) ps [i; j]) with (m := [i; j]).
    - change (w_pm wji) with [0; 1; 2]%nat. rewrite args_three by exact Pp. apply rate_pos; [lra|exact Pp|now apply ij_in].
    - apply abc_nodup. - repeat constructor. - apply wji_ok. - repeat constructor. - reflexivity. - reflexivity. - apply (rate_built (-1) ltac:(lra)). - exact Pp. - reflexivity.
    - symmetry. exact CL. - now apply ij_in. }
  change both with (t_sum (map (fun a => (ta_w a, ta_f a)) both_atoms) 0). rewrite (value_sum sides anyP both_atoms 0 ps [i; j] []).
  - unfold both_atoms. rewrite !Rsum_cons, Rsum_nil. cbn [ta_w ta_f]. lra.
  - exact sides_pos. - discriminate. - repeat constructor; cbn; lra. - apply both_bc. - rewrite both_join. discriminate.
  - apply both_diag. - now left. - exact both_atoms_built. - exact Pp. - exact I.
  - rewrite both_join. now apply ij_in. - rewrite both_join. now left.
Qed.
Lemma ij_of n : In n (indices [N; N]%nat) -> exists i j, n = [i; j] /\ (i < N)%nat /\ (j < N)%nat.
Proof.
  rewrite In_indices. intros H. inversion H as [|i s l l' Hi H']; subst. inversion H' as [|j s' l2 l3 Hj H'']; subst. inversion H''; subst. exists i, j. auto.
Qed.
(** the logarithm is taken of positive numbers, whatever the parameters *)
Lemma two_sided_built : tbuilt sides ([N; N]%nat, []) (are_pars sides) [0; 1; 1; 0]%nat (fun _ => true) false two_sided.
Proof.
  apply (tb_domain _ _ (fun ps => (forall v, t_call both ps = Ok v -> posP ([N; N]%nat, []) (v :: nil)) /\ anyP ps)).
  - intros ps Pp. split; [|exact I]. intros v Ev x Hx.
    destruct (compose_value _ _ _ _ _ t_Log both _ both_built Pp I) as (w & Ew & Pw & Ec & Vw). rewrite Ev in Ew. injection Ew as <-.
    unfold flat in Hx. cbn [fst snd] in Hx. rewrite app_nil_r in Hx. cbn [nth].
    pose proof (Vw x [] Hx (or_introl eq_refl)) as E. rewrite app_nil_r in E. rewrite E.
    destruct (ij_of x Hx) as (i & j & -> & Hi & Hj). now apply both_pos.
  - apply (tb_compose sides ([N; N]%nat, []) [] (posP ([N; N]%nat, [])) anyP [0; 1; 1; 0]%nat (fun i => existsb (fun a => ta_dep a i) both_atoms) t_Log both).
    + exact sides_pos. + discriminate. + intros [|[|[|i]]] Hi; [reflexivity|reflexivity|reflexivity|cbn in Hi; lia].
    + apply (o_Log [N; N]). repeat constructor; exact HN.
    + exact both_built.
Qed.
Lemma two_sided_at i j : (i < N)%nat -> (j < N)%nat ->
  at_res (t_call two_sided args) [] [] [i; j] [] = ln (exp (ua i - ub j + uh) + exp (ua j - ub i - uh)).
Proof.
  intros Hi Hj. destruct (compose_value _ _ _ _ _ t_Log both _ both_built args_par I) as (w & Ew & Pw & Ec & Vw).
  assert (E : forall i j, (i < N)%nat -> (j < N)%nat -> pentry w [i; j] = at_res (t_call both args) [] [] [i; j] []).
  { intros i' j' Hi' Hj'. exact (Vw [i'; j'] [] (ij_in i' j' Hi' Hj') (or_introl eq_refl)). }
  unfold two_sided. rewrite Ec. rewrite (value_Log [N; N] w [i; j]); [|repeat constructor; exact HN|exact Pw| |now apply ij_in].
  - f_equal. rewrite E by auto. now apply both_at.
  - intros x Hx. destruct (ij_of x Hx) as (i' & j' & -> & Hi' & Hj'). rewrite E by auto. apply both_pos; auto.
Qed.
End TwoSided.
