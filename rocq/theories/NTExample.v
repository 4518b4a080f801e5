(** A fit that succeeds: Poisson regression of a 2 x 3 table on row effects, whose
    sum must be 0, and column effects, the middle one fixed.  Used in Props_NT.v to
    show that the hypotheses of its theorems are met together. *)
From Coq Require Import String.
From Verif Require Import Prelude DenseModel AnalyticSpec DenseProofs NDArray NDProofs TensorModel TensorSpec TensorUfunc FuncModel FuncSpec FTModel FTSpec FTPrim FTWrap FTRep FTBuilt FTValue FTFindings LTModel LTLik LTSpec LTDer ETModel ETSpec ETBuilt ParamModel ParamSpec AssembleModel AssembleSpec OTModel OTSpec OTThm FitModel FitSpec Props_FT Props_LT Props_OT Props_ET.
From Verif Require AssembleNewton.
From Coquelicot Require Import Coquelicot.
From Coq Require Import Reals Lra Sorted.
From Verif Require Import NTModel NTSpec NTLike NTThm NTCon.
Import List ListNotations.
Open Scope R_scope.
#[local] Existing Instance loose.

(** numpy.linalg.solve, when its result is exact *)
Definition row_ok (A : list (list R)) (x b : list R) (k : nat) : bool :=
  if Req_EM_T (Rsum (fun l => nth l (nth k A []) 0 * nth l x 0) (seq 0 (length x))) (nth k b 0) then true else false.
Definition checked (x : list R) (A : list (list R)) (b : list R) : res (list R) :=
  if (length x =? length b)%nat && forallb (row_ok A x b) (seq 0 (length b)) then Ok x else Raise LinAlgError.
Definition la_exact (x : list R) : linalg := mkLA (checked x) (fun A => Ok A) (fun _ b => Ok b) (fun A _ _ => Ok A).
Lemma checked_solves x A b y : checked x A b = Ok y -> solves A y b.
Proof.
  unfold checked. destruct (length x =? length b)%nat eqn:L; [|discriminate]. apply Nat.eqb_eq in L. cbn [andb]. destruct (forallb _ _) eqn:F; [|discriminate]. intros E. injection E as <-.
  split; [exact L|]. intros k Hk. rewrite forallb_forall in F. specialize (F k). rewrite in_seq in F. specialize (F ltac:(lia)). unfold row_ok in F. destruct (Req_EM_T _ _); [assumption|discriminate].
Qed.
Lemma solves_checked x A b : solves A x b -> checked x A b = Ok x.
Proof.
  intros [L S]. unfold checked. rewrite L, Nat.eqb_refl. cbn [andb]. replace (forallb _ _) with true; [reflexivity|]. symmetry. apply forallb_forall. intros k Hk. apply in_seq in Hk.
  unfold row_ok. rewrite (S k ltac:(lia)). destruct (Req_EM_T _ _); [reflexivity|contradiction].
Qed.

Definition tab (V : nat -> nat -> R) : nda := mkA [2; 3]%nat (fun i => V (nth 0 i 0%nat) (nth 1 i 0%nat)).
Definition glm (g : R -> R) (regs : list term) : maxlike := mkMaxLike (Poisson g) (linear2o 0) (map registration (sum_zero :: nil)) (map registration regs).
Definition data2 (X N : nat -> nat -> R) (k : string) : option tensor :=
  if String.eqb k "N" then Some (mkT (tab N) 0 0 2 0 [] []) else if String.eqb k "X" then Some (mkT (tab X) 0 0 2 0 [] []) else None.
Lemma linear2o_for : emodel_for two_axes ([2; 3]%nat, []) arrays (linear2o 0).
Proof.
  constructor; [|exact pos_two|split; [repeat constructor|discriminate]]. eexists; eexists; eexists. split; [apply (eb_domain _ _ anyP); [intros; exact I|exact linear2o_built]|].
  split; [intros [|[|i]] Hi; [reflexivity|reflexivity|cbn in Hi; lia]|]. split; [apply ax_refl; repeat constructor|]. split; [constructor|]. reflexivity.
Qed.
Lemma glm_problem g X N d r0 r1 c0 c1 c2 regs : d "N"%string = data2 X N "N" -> d "X"%string = data2 X N "X" -> (regs = ridge :: nil \/ regs = nil) ->
  fit_problem (axes (effects r0 r1 c0 c1 c2)) ([2; 3]%nat, []) arrays (glm g regs) d (sum_zero :: nil) regs.
Proof.
  intros EN EX Hr. constructor.
  - exact linear2o_for.
  - intros k [<-|[<-|[]]]; [rewrite EN|rewrite EX]; eexists; (split; [reflexivity|]); [exact (table23_data N)|exact (table23_data X)].
  - reflexivity.
  - reflexivity.
  - assert (Hs : forall c, c = sum_zero \/ c = ridge -> tm_map c <> [] /\ StronglySorted lt (tm_map c) /\ Forall (fun k => k < 2)%nat (tm_map c) /\ forall ps, are_pars two_axes ps -> arrays ps -> tm_dom c (sub_args (tm_map c) ps)).
    { intros c [->| ->]; (split; [discriminate|]; split; [repeat constructor|]; split; [cbn; repeat constructor|]).
      + intros ps A Ar. constructor; [|constructor]. unfold arrays in Ar. rewrite Forall_forall in Ar. apply Ar, nth_In. rewrite (DenseProofs.Forall2_length' _ _ _ A). cbn. lia.
      + intros ps A Ar. exact I. }
    intros c [<-|Hc]; [apply Hs; now left|]. apply Hs. destruct Hr as [-> | ->]; [destruct Hc as [<-|[]]; now right|destruct Hc].
  - intros c [<-|[]]. apply (C78_linear (((2 :: nil)%nat, []) :: nil) (1 :: nil)); [repeat constructor|reflexivity].
  - intros c Hc. destruct Hr as [-> | ->]; [|destruct Hc]. destruct Hc as [<-|[]]. apply (C78_quadratic two_axes 0 1); [repeat constructor|lra].
  - intros q _ _ _. apply arrays_inside.
Qed.

Lemma effects_par f h : are_pars two_axes [PArr (mkA (2 :: nil)%nat f); PArr (mkA (3 :: nil)%nat h)].
Proof. repeat constructor. Qed.
Lemma aX_val f h i j : (i < 2)%nat -> at_res (t_call aX [PArr (mkA (2 :: nil)%nat f); PArr (mkA (3 :: nil)%nat h)]) [] [] [i; j] [] = f (i :: nil).
Proof. intros Hi. destruct i as [|[|i]]; [cbn; ring|cbn; ring|lia]. Qed.
Lemma bX_val f h i j : (j < 3)%nat -> at_res (t_call bX [PArr (mkA (2 :: nil)%nat f); PArr (mkA (3 :: nil)%nat h)]) [] [] [i; j] [] = h (j :: nil).
Proof. intros Hj. destruct j as [|[|[|j]]]; [cbn; ring|cbn; ring|cbn; ring|lia]. Qed.
Lemma linear2_val f h i j : (i < 2)%nat -> (j < 3)%nat ->
  fitted linear2 [PArr (mkA (2 :: nil)%nat f); PArr (mkA (3 :: nil)%nat h)] [i; j] [] = f (i :: nil) + h (j :: nil).
Proof.
  intros Hi Hj. pose proof (aX_val f h i j Hi) as A. pose proof (bX_val f h i j Hj) as B. pose proof (effects_par f h) as Pa. set (ps := [_; _]) in *. clearbody ps.
  assert (Hn : In [i; j] (indices [2; 3]%nat)) by (apply In_indices; constructor; [exact Hi|constructor; [exact Hj|constructor]]).
  pose proof (C74_sum two_axes anyP atoms2 0 ps [i; j] [] pos_two ltac:(discriminate) ltac:(repeat constructor; cbn; lra) atoms2_bc ltac:(intros E'; vm_compute in E'; discriminate E')
    ltac:(repeat constructor; intros k [<-|[]]; reflexivity) (or_introl eq_refl)) as S.
  unfold fitted, linear2. change [(1, aX); (1, bX)] with (map (fun a => (ta_w a, ta_f a)) atoms2). rewrite S; [|clear|exact Pa|exact I|exact Hn|now left].
  - unfold atoms2. rewrite !Rsum_cons, Rsum_nil. cbn [ta_w ta_f]. rewrite A, B. ring.
  - intros a Ha. change atoms2 with (map tatom_of eatoms2) in Ha. apply in_map_iff in Ha as (a' & <- & Ha). apply ebuilt_tbuilt. now apply eatoms2_built.
Qed.
Lemma linear2_fitted r0 r1 c0 c1 c2 i j : (i < 2)%nat -> (j < 3)%nat ->
  fitted linear2 (map arr_of (effects r0 r1 c0 c1 c2)) [i; j] [] = nth i [r0; r1] 0 + nth j [c0; c1; c2] 0.
Proof.
  intros Hi Hj. unfold effects, arr_of. cbn [map p_shape p_vals]. rewrite (linear2_val _ _ i j Hi Hj).
  destruct i as [|[|i]]; [| |lia]; destruct j as [|[|[|j]]]; try lia; reflexivity.
Qed.

(** the penalized log-likelihood as a formula *)
Section run.
Variable g : R -> R.
Definition X4 (i j : nat) : R := 4.
Definition N12 (i j : nat) : R := match i with O => 1 | _ => 2 end.
Variable d : string -> option tensor.
Hypothesis dN : d "N"%string = data2 X4 N12 "N".
Hypothesis dX : d "X"%string = data2 X4 N12 "X".
Notation dat := (([2; 3]%nat, []) : pst).
Notation pen := (goal (glm g nil) d dat nil).
Definition cellv (n y : R) : R := 4 * y - n * exp y - g 5.
Definition P (r0 r1 c0 c1 c2 : R) : R :=
  cellv 1 (r0 + c0) + cellv 1 (r0 + c1) + cellv 1 (r0 + c2) + cellv 2 (r1 + c0) + cellv 2 (r1 + c1) + cellv 2 (r1 + c2).
Lemma pen_P r0 r1 c0 c1 c2 : pen (effects r0 r1 c0 c1 c2) = P r0 r1 c0 c1 c2.
Proof.
  unfold goal, penalized. cbn [ml_class ml_model glm]. change (o_f (linear2o 0)) with linear2. unfold log_likelihood, data. rewrite dN, dX.
  assert (E : forall i j, (i < 2)%nat -> (j < 3)%nat -> fitted linear2 (map arr_of (effects r0 r1 c0 c1 c2)) [i; j] [] = nth i [r0; r1] 0 + nth j [c0; c1; c2] 0) by (intros; now apply linear2_fitted).
  set (ps := map arr_of _) in *. clearbody ps. unfold over. cbn [fst snd indices flat_map map seq app]. unfold Rsum. cbn [map fold_right]. unfold data2. cbn -[fitted exp]. rewrite !E by lia. cbn [nth].
  unfold P, cellv, X4, N12. replace (4 * 1 * 1 + 1) with 5 by ring. ring.
Qed.
Lemma total_9 : total d dat = 9.
Proof. unfold total, data. rewrite dN. unfold over. cbn [fst snd indices flat_map map seq app]. unfold Rsum. cbn [map fold_right]. unfold data2. cbn. unfold N12. ring. Qed.
Lemma sum_value r0 r1 c0 c1 c2 : con_value sum_zero (effects r0 r1 c0 c1 c2) = r0 + r1.
Proof. unfold con_value, term_at, sum_zero. cbn [tm_map tm_val]. unfold over_params, Rsum. cbn. ring. Qed.
(** first derivatives *)
Definition dc (n y : R) : R := 4 - n * exp y.
Lemma part00 r0 r1 c0 c1 c2 : is_partial pen 0 0 (effects r0 r1 c0 c1 c2) (dc 1 (r0 + c0) + dc 1 (r0 + c1) + dc 1 (r0 + c2)).
Proof. unfold is_partial. apply (is_derive_ext (fun t => P t r1 c0 c1 c2)); [intros t; symmetry; exact (pen_P t r1 c0 c1 c2)|]. cbn [entry_of effects nth p_vals]. unfold P, cellv, dc. auto_derive; [exact I|]. cbn. ring. Qed.
Lemma part01 r0 r1 c0 c1 c2 : is_partial pen 0 1 (effects r0 r1 c0 c1 c2) (dc 2 (r1 + c0) + dc 2 (r1 + c1) + dc 2 (r1 + c2)).
Proof. unfold is_partial. apply (is_derive_ext (fun t => P r0 t c0 c1 c2)); [intros t; symmetry; exact (pen_P r0 t c0 c1 c2)|]. cbn [entry_of effects nth p_vals]. unfold P, cellv, dc. auto_derive; [exact I|]. cbn. ring. Qed.
Lemma part10 r0 r1 c0 c1 c2 : is_partial pen 1 0 (effects r0 r1 c0 c1 c2) (dc 1 (r0 + c0) + dc 2 (r1 + c0)).
Proof. unfold is_partial. apply (is_derive_ext (fun t => P r0 r1 t c1 c2)); [intros t; symmetry; exact (pen_P r0 r1 t c1 c2)|]. cbn [entry_of effects nth p_vals]. unfold P, cellv, dc. auto_derive; [exact I|]. cbn. ring. Qed.
Lemma part12 r0 r1 c0 c1 c2 : is_partial pen 1 2 (effects r0 r1 c0 c1 c2) (dc 1 (r0 + c2) + dc 2 (r1 + c2)).
Proof. unfold is_partial. apply (is_derive_ext (fun t => P r0 r1 c0 c1 t)); [intros t; symmetry; exact (pen_P r0 r1 c0 c1 t)|]. cbn [entry_of effects nth p_vals]. unfold P, cellv, dc. auto_derive; [exact I|]. cbn. ring. Qed.
(** second derivatives *)
Definition hc (n y : R) : R := - (n * exp y).
Lemma h00_00 r0 r1 c0 c1 c2 : is_partial (partial pen 0 0) 0 0 (effects r0 r1 c0 c1 c2) (hc 1 (r0 + c0) + hc 1 (r0 + c1) + hc 1 (r0 + c2)).
Proof. unfold is_partial. apply (is_derive_ext (fun t => dc 1 (t + c0) + dc 1 (t + c1) + dc 1 (t + c2))); [intros t; symmetry; exact (is_derive_unique _ _ _ (part00 t r1 c0 c1 c2))|]. cbn [entry_of effects nth p_vals]. unfold dc, hc. auto_derive; [exact I|]. cbn. ring. Qed.
Lemma h00_01 r0 r1 c0 c1 c2 : is_partial (partial pen 0 0) 0 1 (effects r0 r1 c0 c1 c2) (0).
Proof. unfold is_partial. apply (is_derive_ext (fun t => dc 1 (r0 + c0) + dc 1 (r0 + c1) + dc 1 (r0 + c2))); [intros t; symmetry; exact (is_derive_unique _ _ _ (part00 r0 t c0 c1 c2))|]. cbn [entry_of effects nth p_vals]. unfold dc, hc. auto_derive; [exact I|]. cbn. ring. Qed.
Lemma h00_10 r0 r1 c0 c1 c2 : is_partial (partial pen 0 0) 1 0 (effects r0 r1 c0 c1 c2) (hc 1 (r0 + c0)).
Proof. unfold is_partial. apply (is_derive_ext (fun t => dc 1 (r0 + t) + dc 1 (r0 + c1) + dc 1 (r0 + c2))); [intros t; symmetry; exact (is_derive_unique _ _ _ (part00 r0 r1 t c1 c2))|]. cbn [entry_of effects nth p_vals]. unfold dc, hc. auto_derive; [exact I|]. cbn. ring. Qed.
Lemma h00_12 r0 r1 c0 c1 c2 : is_partial (partial pen 0 0) 1 2 (effects r0 r1 c0 c1 c2) (hc 1 (r0 + c2)).
Proof. unfold is_partial. apply (is_derive_ext (fun t => dc 1 (r0 + c0) + dc 1 (r0 + c1) + dc 1 (r0 + t))); [intros t; symmetry; exact (is_derive_unique _ _ _ (part00 r0 r1 c0 c1 t))|]. cbn [entry_of effects nth p_vals]. unfold dc, hc. auto_derive; [exact I|]. cbn. ring. Qed.
Lemma h01_00 r0 r1 c0 c1 c2 : is_partial (partial pen 0 1) 0 0 (effects r0 r1 c0 c1 c2) (0).
Proof. unfold is_partial. apply (is_derive_ext (fun t => dc 2 (r1 + c0) + dc 2 (r1 + c1) + dc 2 (r1 + c2))); [intros t; symmetry; exact (is_derive_unique _ _ _ (part01 t r1 c0 c1 c2))|]. cbn [entry_of effects nth p_vals]. unfold dc, hc. auto_derive; [exact I|]. cbn. ring. Qed.
Lemma h01_01 r0 r1 c0 c1 c2 : is_partial (partial pen 0 1) 0 1 (effects r0 r1 c0 c1 c2) (hc 2 (r1 + c0) + hc 2 (r1 + c1) + hc 2 (r1 + c2)).
Proof. unfold is_partial. apply (is_derive_ext (fun t => dc 2 (t + c0) + dc 2 (t + c1) + dc 2 (t + c2))); [intros t; symmetry; exact (is_derive_unique _ _ _ (part01 r0 t c0 c1 c2))|]. cbn [entry_of effects nth p_vals]. unfold dc, hc. auto_derive; [exact I|]. cbn. ring. Qed.
Lemma h01_10 r0 r1 c0 c1 c2 : is_partial (partial pen 0 1) 1 0 (effects r0 r1 c0 c1 c2) (hc 2 (r1 + c0)).
Proof. unfold is_partial. apply (is_derive_ext (fun t => dc 2 (r1 + t) + dc 2 (r1 + c1) + dc 2 (r1 + c2))); [intros t; symmetry; exact (is_derive_unique _ _ _ (part01 r0 r1 t c1 c2))|]. cbn [entry_of effects nth p_vals]. unfold dc, hc. auto_derive; [exact I|]. cbn. ring. Qed.
Lemma h01_12 r0 r1 c0 c1 c2 : is_partial (partial pen 0 1) 1 2 (effects r0 r1 c0 c1 c2) (hc 2 (r1 + c2)).
Proof. unfold is_partial. apply (is_derive_ext (fun t => dc 2 (r1 + c0) + dc 2 (r1 + c1) + dc 2 (r1 + t))); [intros t; symmetry; exact (is_derive_unique _ _ _ (part01 r0 r1 c0 c1 t))|]. cbn [entry_of effects nth p_vals]. unfold dc, hc. auto_derive; [exact I|]. cbn. ring. Qed.
Lemma h10_00 r0 r1 c0 c1 c2 : is_partial (partial pen 1 0) 0 0 (effects r0 r1 c0 c1 c2) (hc 1 (r0 + c0)).
Proof. unfold is_partial. apply (is_derive_ext (fun t => dc 1 (t + c0) + dc 2 (r1 + c0))); [intros t; symmetry; exact (is_derive_unique _ _ _ (part10 t r1 c0 c1 c2))|]. cbn [entry_of effects nth p_vals]. unfold dc, hc. auto_derive; [exact I|]. cbn. ring. Qed.
Lemma h10_01 r0 r1 c0 c1 c2 : is_partial (partial pen 1 0) 0 1 (effects r0 r1 c0 c1 c2) (hc 2 (r1 + c0)).
Proof. unfold is_partial. apply (is_derive_ext (fun t => dc 1 (r0 + c0) + dc 2 (t + c0))); [intros t; symmetry; exact (is_derive_unique _ _ _ (part10 r0 t c0 c1 c2))|]. cbn [entry_of effects nth p_vals]. unfold dc, hc. auto_derive; [exact I|]. cbn. ring. Qed.
Lemma h10_10 r0 r1 c0 c1 c2 : is_partial (partial pen 1 0) 1 0 (effects r0 r1 c0 c1 c2) (hc 1 (r0 + c0) + hc 2 (r1 + c0)).
Proof. unfold is_partial. apply (is_derive_ext (fun t => dc 1 (r0 + t) + dc 2 (r1 + t))); [intros t; symmetry; exact (is_derive_unique _ _ _ (part10 r0 r1 t c1 c2))|]. cbn [entry_of effects nth p_vals]. unfold dc, hc. auto_derive; [exact I|]. cbn. ring. Qed.
Lemma h10_12 r0 r1 c0 c1 c2 : is_partial (partial pen 1 0) 1 2 (effects r0 r1 c0 c1 c2) (0).
Proof. unfold is_partial. apply (is_derive_ext (fun t => dc 1 (r0 + c0) + dc 2 (r1 + c0))); [intros t; symmetry; exact (is_derive_unique _ _ _ (part10 r0 r1 c0 c1 t))|]. cbn [entry_of effects nth p_vals]. unfold dc, hc. auto_derive; [exact I|]. cbn. ring. Qed.
Lemma h12_00 r0 r1 c0 c1 c2 : is_partial (partial pen 1 2) 0 0 (effects r0 r1 c0 c1 c2) (hc 1 (r0 + c2)).
Proof. unfold is_partial. apply (is_derive_ext (fun t => dc 1 (t + c2) + dc 2 (r1 + c2))); [intros t; symmetry; exact (is_derive_unique _ _ _ (part12 t r1 c0 c1 c2))|]. cbn [entry_of effects nth p_vals]. unfold dc, hc. auto_derive; [exact I|]. cbn. ring. Qed.
Lemma h12_01 r0 r1 c0 c1 c2 : is_partial (partial pen 1 2) 0 1 (effects r0 r1 c0 c1 c2) (hc 2 (r1 + c2)).
Proof. unfold is_partial. apply (is_derive_ext (fun t => dc 1 (r0 + c2) + dc 2 (t + c2))); [intros t; symmetry; exact (is_derive_unique _ _ _ (part12 r0 t c0 c1 c2))|]. cbn [entry_of effects nth p_vals]. unfold dc, hc. auto_derive; [exact I|]. cbn. ring. Qed.
Lemma h12_10 r0 r1 c0 c1 c2 : is_partial (partial pen 1 2) 1 0 (effects r0 r1 c0 c1 c2) (0).
Proof. unfold is_partial. apply (is_derive_ext (fun t => dc 1 (r0 + c2) + dc 2 (r1 + c2))); [intros t; symmetry; exact (is_derive_unique _ _ _ (part12 r0 r1 t c1 c2))|]. cbn [entry_of effects nth p_vals]. unfold dc, hc. auto_derive; [exact I|]. cbn. ring. Qed.
Lemma h12_12 r0 r1 c0 c1 c2 : is_partial (partial pen 1 2) 1 2 (effects r0 r1 c0 c1 c2) (hc 1 (r0 + c2) + hc 2 (r1 + c2)).
Proof. unfold is_partial. apply (is_derive_ext (fun t => dc 1 (r0 + t) + dc 2 (r1 + t))); [intros t; symmetry; exact (is_derive_unique _ _ _ (part12 r0 r1 c0 c1 t))|]. cbn [entry_of effects nth p_vals]. unfold dc, hc. auto_derive; [exact I|]. cbn. ring. Qed.
Lemma con_00 r0 r1 c0 c1 c2 : is_partial (con_value sum_zero) 0 0 (effects r0 r1 c0 c1 c2) 1.
Proof. unfold is_partial. apply (is_derive_ext (fun t => t + r1)); [intros t; symmetry; exact (sum_value t r1 c0 c1 c2)|]. auto_derive; [exact I|]. cbn. ring. Qed.
Lemma con_01 r0 r1 c0 c1 c2 : is_partial (con_value sum_zero) 0 1 (effects r0 r1 c0 c1 c2) 1.
Proof. unfold is_partial. apply (is_derive_ext (fun t => r0 + t)); [intros t; symmetry; exact (sum_value r0 t c0 c1 c2)|]. auto_derive; [exact I|]. cbn. ring. Qed.
Lemma con_10 r0 r1 c0 c1 c2 : is_partial (con_value sum_zero) 1 0 (effects r0 r1 c0 c1 c2) 0.
Proof. unfold is_partial. apply (is_derive_ext (fun t => r0 + r1)); [intros t; symmetry; exact (sum_value r0 r1 t c1 c2)|]. auto_derive; [exact I|]. cbn. ring. Qed.
Lemma con_12 r0 r1 c0 c1 c2 : is_partial (con_value sum_zero) 1 2 (effects r0 r1 c0 c1 c2) 0.
Proof. unfold is_partial. apply (is_derive_ext (fun t => r0 + r1)); [intros t; symmetry; exact (sum_value r0 r1 c0 c1 t)|]. auto_derive; [exact I|]. cbn. ring. Qed.

(** the system at the starting point, and its solution *)
Definition start2 : list (param R) := effects (ln 2) 0 0 0 0.
Definition step2 : list R := [ln 2 / 2; ln 2 / 2; - 1 - ln 2 / 2; - 1 - ln 2 / 2; 2 + ln 2].
Lemma exp_start : exp (ln 2 + 0) = 2 /\ exp (0 + 0) = 1.
Proof. split; [rewrite Rplus_0_r; apply exp_ln; lra|rewrite Rplus_0_r; apply exp_0]. Qed.
Lemma uniq (f : R -> R) (x a b : R) : is_derive f x a -> is_derive f x b -> a = b.
Proof. intros A B. rewrite <- (is_derive_unique _ _ _ A). exact (is_derive_unique _ _ _ B). Qed.
Lemma start_solution G H : newton_system pen (sum_zero :: nil) start2 G H -> solves H step2 G.
Proof.
  intros [Sz Gr Co He Bo Sy Cn]. change (n_free start2) with 4%nat in *. cbn [length Nat.add] in Sz, Sy, Cn. destruct Sz as (LG & LH & LR).
  destruct exp_start as [E1 E2].
  assert (G0 : nth 0 G 0 = 6) by (rewrite (uniq _ _ _ _ (Gr 0%nat 0%nat 0%nat eq_refl) (part00 (ln 2) 0 0 0 0)); unfold dc; rewrite ?E1, ?E2; ring).
  assert (G1 : nth 1 G 0 = 6) by (rewrite (uniq _ _ _ _ (Gr 1%nat 0%nat 1%nat eq_refl) (part01 (ln 2) 0 0 0 0)); unfold dc; rewrite ?E1, ?E2; ring).
  assert (G2 : nth 2 G 0 = 4) by (rewrite (uniq _ _ _ _ (Gr 2%nat 1%nat 0%nat eq_refl) (part10 (ln 2) 0 0 0 0)); unfold dc; rewrite ?E1, ?E2; ring).
  assert (G3 : nth 3 G 0 = 4) by (rewrite (uniq _ _ _ _ (Gr 3%nat 1%nat 2%nat eq_refl) (part12 (ln 2) 0 0 0 0)); unfold dc; rewrite ?E1, ?E2; ring).
  assert (G4 : nth 4 G 0 = ln 2) by (transitivity (con_value sum_zero start2); [exact (Co 0%nat sum_zero eq_refl)|unfold start2; rewrite sum_value; ring]).
  assert (H00 : nth 0 (nth 0 H []) 0 = (-6)) by (rewrite (uniq _ _ _ _ (He 0%nat 0%nat 0%nat 0%nat 0%nat 0%nat eq_refl eq_refl) (h00_00 (ln 2) 0 0 0 0)); unfold hc; rewrite ?E1, ?E2; ring).
  assert (H01 : nth 1 (nth 0 H []) 0 = 0) by (rewrite (uniq _ _ _ _ (He 0%nat 1%nat 0%nat 0%nat 0%nat 1%nat eq_refl eq_refl) (h00_01 (ln 2) 0 0 0 0)); unfold hc; rewrite ?E1, ?E2; ring).
  assert (H02 : nth 2 (nth 0 H []) 0 = (-2)) by (rewrite (uniq _ _ _ _ (He 0%nat 2%nat 0%nat 0%nat 1%nat 0%nat eq_refl eq_refl) (h00_10 (ln 2) 0 0 0 0)); unfold hc; rewrite ?E1, ?E2; ring).
  assert (H03 : nth 3 (nth 0 H []) 0 = (-2)) by (rewrite (uniq _ _ _ _ (He 0%nat 3%nat 0%nat 0%nat 1%nat 2%nat eq_refl eq_refl) (h00_12 (ln 2) 0 0 0 0)); unfold hc; rewrite ?E1, ?E2; ring).
  assert (H10 : nth 0 (nth 1 H []) 0 = 0) by (rewrite (uniq _ _ _ _ (He 1%nat 0%nat 0%nat 1%nat 0%nat 0%nat eq_refl eq_refl) (h01_00 (ln 2) 0 0 0 0)); unfold hc; rewrite ?E1, ?E2; ring).
  assert (H11 : nth 1 (nth 1 H []) 0 = (-6)) by (rewrite (uniq _ _ _ _ (He 1%nat 1%nat 0%nat 1%nat 0%nat 1%nat eq_refl eq_refl) (h01_01 (ln 2) 0 0 0 0)); unfold hc; rewrite ?E1, ?E2; ring).
  assert (H12 : nth 2 (nth 1 H []) 0 = (-2)) by (rewrite (uniq _ _ _ _ (He 1%nat 2%nat 0%nat 1%nat 1%nat 0%nat eq_refl eq_refl) (h01_10 (ln 2) 0 0 0 0)); unfold hc; rewrite ?E1, ?E2; ring).
  assert (H13 : nth 3 (nth 1 H []) 0 = (-2)) by (rewrite (uniq _ _ _ _ (He 1%nat 3%nat 0%nat 1%nat 1%nat 2%nat eq_refl eq_refl) (h01_12 (ln 2) 0 0 0 0)); unfold hc; rewrite ?E1, ?E2; ring).
  assert (H20 : nth 0 (nth 2 H []) 0 = (-2)) by (rewrite (uniq _ _ _ _ (He 2%nat 0%nat 1%nat 0%nat 0%nat 0%nat eq_refl eq_refl) (h10_00 (ln 2) 0 0 0 0)); unfold hc; rewrite ?E1, ?E2; ring).
  assert (H21 : nth 1 (nth 2 H []) 0 = (-2)) by (rewrite (uniq _ _ _ _ (He 2%nat 1%nat 1%nat 0%nat 0%nat 1%nat eq_refl eq_refl) (h10_01 (ln 2) 0 0 0 0)); unfold hc; rewrite ?E1, ?E2; ring).
  assert (H22 : nth 2 (nth 2 H []) 0 = (-4)) by (rewrite (uniq _ _ _ _ (He 2%nat 2%nat 1%nat 0%nat 1%nat 0%nat eq_refl eq_refl) (h10_10 (ln 2) 0 0 0 0)); unfold hc; rewrite ?E1, ?E2; ring).
  assert (H23 : nth 3 (nth 2 H []) 0 = 0) by (rewrite (uniq _ _ _ _ (He 2%nat 3%nat 1%nat 0%nat 1%nat 2%nat eq_refl eq_refl) (h10_12 (ln 2) 0 0 0 0)); unfold hc; rewrite ?E1, ?E2; ring).
  assert (H30 : nth 0 (nth 3 H []) 0 = (-2)) by (rewrite (uniq _ _ _ _ (He 3%nat 0%nat 1%nat 2%nat 0%nat 0%nat eq_refl eq_refl) (h12_00 (ln 2) 0 0 0 0)); unfold hc; rewrite ?E1, ?E2; ring).
  assert (H31 : nth 1 (nth 3 H []) 0 = (-2)) by (rewrite (uniq _ _ _ _ (He 3%nat 1%nat 1%nat 2%nat 0%nat 1%nat eq_refl eq_refl) (h12_01 (ln 2) 0 0 0 0)); unfold hc; rewrite ?E1, ?E2; ring).
  assert (H32 : nth 2 (nth 3 H []) 0 = 0) by (rewrite (uniq _ _ _ _ (He 3%nat 2%nat 1%nat 2%nat 1%nat 0%nat eq_refl eq_refl) (h12_10 (ln 2) 0 0 0 0)); unfold hc; rewrite ?E1, ?E2; ring).
  assert (H33 : nth 3 (nth 3 H []) 0 = (-4)) by (rewrite (uniq _ _ _ _ (He 3%nat 3%nat 1%nat 2%nat 1%nat 2%nat eq_refl eq_refl) (h12_12 (ln 2) 0 0 0 0)); unfold hc; rewrite ?E1, ?E2; ring).
  assert (H40 : nth 0 (nth 4 H []) 0 = 1) by (exact (uniq _ _ _ _ (Bo 0%nat sum_zero 0%nat 0%nat 0%nat eq_refl eq_refl) (con_00 (ln 2) 0 0 0 0))).
  assert (H04 : nth 4 (nth 0 H []) 0 = 1) by (rewrite Sy by lia; exact H40).
  assert (H41 : nth 1 (nth 4 H []) 0 = 1) by (exact (uniq _ _ _ _ (Bo 0%nat sum_zero 1%nat 0%nat 1%nat eq_refl eq_refl) (con_01 (ln 2) 0 0 0 0))).
  assert (H14 : nth 4 (nth 1 H []) 0 = 1) by (rewrite Sy by lia; exact H41).
  assert (H42 : nth 2 (nth 4 H []) 0 = 0) by (exact (uniq _ _ _ _ (Bo 0%nat sum_zero 2%nat 1%nat 0%nat eq_refl eq_refl) (con_10 (ln 2) 0 0 0 0))).
  assert (H24 : nth 4 (nth 2 H []) 0 = 0) by (rewrite Sy by lia; exact H42).
  assert (H43 : nth 3 (nth 4 H []) 0 = 0) by (exact (uniq _ _ _ _ (Bo 0%nat sum_zero 3%nat 1%nat 2%nat eq_refl eq_refl) (con_12 (ln 2) 0 0 0 0))).
  assert (H34 : nth 4 (nth 3 H []) 0 = 0) by (rewrite Sy by lia; exact H43).
  assert (H44 : nth 4 (nth 4 H []) 0 = 0) by (apply Cn; lia).
  split; [rewrite LG; reflexivity|]. intros k Hk. rewrite LG in Hk. unfold step2. cbn [length seq]. unfold Rsum. cbn [map fold_right].
  destruct k as [|[|[|[|[|k]]]]]; [| | | | |lia].
  - rewrite H00, H01, H02, H03, H04, G0. cbn [nth]. field.
  - rewrite H10, H11, H12, H13, H14, G1. cbn [nth]. field.
  - rewrite H20, H21, H22, H23, H24, G2. cbn [nth]. field.
  - rewrite H30, H31, H32, H33, H34, G3. cbn [nth]. field.
  - rewrite H40, H41, H42, H43, H44, G4. cbn [nth]. field.
Qed.
End run.

(** the run *)
Definition kw2 : list (string * nda) := [("N"%string, tab N12); ("X"%string, tab X4)].
Definition state2 : state R (list (list R)) tensor := mkState start2 None false (fun _ => None).
Definition d2 : string -> option tensor := s_data (fst (load_data state2 (data_args 0 kw2))).
Definition end2 : list (param R) := effects (ln 2 - 1 * (ln 2 / 2)) (0 - 1 * (ln 2 / 2)) (0 - 1 * (- 1 - ln 2 / 2)) 0 (0 - 1 * (- 1 - ln 2 / 2)).
Lemma d2_N : d2 "N"%string = data2 X4 N12 "N".
Proof. reflexivity. Qed.
Lemma d2_X : d2 "X"%string = data2 X4 N12 "X".
Proof. reflexivity. Qed.
Lemma pow_le x y n : 0 <= x <= y -> x ^ n <= y ^ n.
Proof. apply pow_incr. Qed.
Lemma exp_pow x n : exp (INR n * x) = exp x ^ n.
Proof. induction n as [|n IH]; [rewrite Rmult_0_l; apply exp_0|]. rewrite S_INR, Rmult_plus_distr_r, exp_plus, IH, Rmult_1_l. cbn [pow]. ring. Qed.
Lemma exp1_bounds : 2 <= exp 1 <= 2.77.
Proof.
  split; [pose proof (exp_ineq1 1 ltac:(lra)); lra|].
  replace 1 with (INR 32 * (1 / 32)) by (cbn; lra). rewrite exp_pow.
  assert (B : 0 <= exp (1 / 32) <= 32 / 31).
  { split; [left; apply exp_pos|]. pose proof (exp_ineq1 (- (1 / 32)) ltac:(lra)) as I. rewrite exp_Ropp in I. pose proof (exp_pos (1 / 32)) as Pz.
    assert (I2 : 31 / 32 * exp (1 / 32) <= / exp (1 / 32) * exp (1 / 32)) by (apply Rmult_le_compat_r; lra). rewrite Rinv_l in I2 by lra. lra. }
  eapply Rle_trans; [apply pow_incr; exact B|]. lra.
Qed.
Lemma ln2_bounds : 0 < ln 2 <= 0.7.
Proof.
  split; [rewrite <- ln_1; apply ln_increasing; lra|]. rewrite <- (ln_exp 0.7). apply ln_le; [lra|].
  replace 0.7 with (INR 64 * (0.7 / 64)) by (cbn; lra). rewrite exp_pow. pose proof (exp_ineq1 (0.7 / 64) ltac:(lra)) as I.
  eapply Rle_trans; [|apply pow_incr; split; [|left; exact I]]; lra.
Qed.
Lemma half_ln : exp (ln 2 / 2) * exp (ln 2 / 2) = 2 /\ 0 < exp (ln 2 / 2) /\ exp (- (ln 2 / 2)) = exp (ln 2 / 2) / 2.
Proof.
  assert (E : exp (ln 2 / 2) * exp (ln 2 / 2) = 2) by (rewrite <- exp_plus; replace (ln 2 / 2 + ln 2 / 2) with (ln 2) by field; apply exp_ln; lra).
  split; [exact E|]. split; [apply exp_pos|]. rewrite exp_Ropp. pose proof (exp_pos (ln 2 / 2)). field_simplify_eq; [|lra]. lra.
Qed.
Section values.
Variable g : R -> R.
Notation pen := (goal (glm g nil) d2 (([2; 3]%nat, []) : pst) nil).
Lemma pen_start2 : pen start2 = 12 * ln 2 - 12 - 6 * g 5.
Proof. unfold start2. rewrite (pen_P g d2 d2_N d2_X). unfold P, cellv. destruct exp_start as [-> ->]. ring. Qed.
Lemma pen_end2 : pen end2 = 8 * ln 2 + 16 - 8 * exp 1 - 2 * exp (ln 2 / 2) - 6 * g 5.
Proof.
  unfold end2. rewrite (pen_P g d2 d2_N d2_X). unfold P, cellv. destruct half_ln as (E & _ & E').
  replace (ln 2 - 1 * (ln 2 / 2) + (0 - 1 * (- 1 - ln 2 / 2))) with (1 + ln 2) by field.
  replace (0 - 1 * (ln 2 / 2) + (0 - 1 * (- 1 - ln 2 / 2))) with 1 by field.
  replace (ln 2 - 1 * (ln 2 / 2) + 0) with (ln 2 / 2) by field. replace (0 - 1 * (ln 2 / 2) + 0) with (- (ln 2 / 2)) by field.
  rewrite exp_plus, exp_ln, E' by lra. field.
Qed.
Lemma pen_progress : 3 <= g 5 -> pen start2 <= pen end2 /\ pen end2 < 0 /\ Rabs (pen start2 / pen end2 - 1) < 1.
Proof.
  intros Hg. rewrite pen_start2, pen_end2. destruct exp1_bounds as [E1 E2]. destruct ln2_bounds as [L1 L2]. destruct half_ln as (S & S0 & _).
  assert (S2 : 1 <= exp (ln 2 / 2) <= 1.4143) by nra. set (q := exp (ln 2 / 2)) in *. set (e := exp 1) in *. set (l := ln 2) in *. clearbody q e l.
  split; [lra|]. assert (Ng : 8 * l + 16 - 8 * e - 2 * q - 6 * g 5 < 0) by lra. split; [exact Ng|].
  set (b := 8 * l + 16 - 8 * e - 2 * q - 6 * g 5) in *. set (a := 12 * l - 12 - 6 * g 5). assert (Hab : a <= b) by (unfold a, b; lra). assert (H2 : 2 * b < a) by (unfold a, b; lra). clearbody a b.
  replace (a / b - 1) with ((b - a) / - b) by (field; lra). rewrite Rabs_right.
  - apply (Rmult_lt_reg_r (- b)); [lra|]. unfold Rdiv. rewrite Rmult_assoc, Rinv_l by lra. lra.
  - apply Rle_ge. apply Rmult_le_pos; [lra|]. left. apply Rinv_0_lt_compat. lra.
Qed.
End values.
(** fit gives *)
Section fits.
Variable g : R -> R.
Hypothesis Hg : 3 <= g 5.
Notation m2 := (glm g nil).
Notation la := (la_exact step2).
Lemma fp2 : fit_problem (axes start2) ([2; 3]%nat, []) arrays m2 d2 (sum_zero :: nil) nil.
Proof. apply (glm_problem g X4 N12 d2); [exact d2_N|exact d2_X|now right]. Qed.
Lemma effects_ok r0 r1 c0 c1 c2 : params_ok (effects r0 r1 c0 c1 c2).
Proof. split; [repeat constructor|discriminate]. Qed.
Lemma all_arrays q : arrays (map arr_of q).
Proof. apply Forall_forall. intros p Hp. apply in_map_iff in Hp as (x & <- & _). eexists; reflexivity. Qed.
Lemma tot2 : total d2 ([2; 3]%nat, []) <> 0.
Proof. rewrite (total_9 d2 d2_N). lra. Qed.
Lemma step_run : exists G H, newton_step (fit_of m2 la) d2 start2 = Ok (firstn 4 step2, goal m2 d2 ([2; 3]%nat, []) nil start2 / 9, G, H).
Proof.
  destruct (point_step _ _ m2 la d2 _ _ _ fp2 tot2 start2 (effects_ok _ _ _ _ _) eq_refl (all_arrays _)) as (y & der & hs & G & H & Ev & Ob & Gr & He & NS).
  exists G, H. unfold newton_step. rewrite Ev. cbn [rbind]. rewrite Ob. cbn [rbind]. rewrite Gr. cbn [rbind]. rewrite He. cbn [rbind].
  change (np_solve (fit_of m2 la) H G) with (checked step2 H G). rewrite (solves_checked _ _ _ (start_solution g d2 d2_N d2_X G H NS)). cbn [rbind].
  rewrite (total_9 d2 d2_N). reflexivity.
Qed.
Lemma trial_run : g_at (fit_of m2 la) d2 end2 = Ok (goal m2 d2 ([2; 3]%nat, []) nil end2 / 9).
Proof. rewrite (point_g _ _ m2 la d2 _ _ _ fp2 tot2 end2 (effects_ok _ _ _ _ _) eq_refl (all_arrays _)). now rewrite (total_9 d2 d2_N). Qed.
Definition loaded2 : state R (list (list R)) tensor := mkState start2 None false d2.
Theorem run2 : exists H, ml_fit m2 la 1 20 0 "Newton" kw2 state2 =
  (EvStep start2 :: EvTrial 1 (free_entries end2) :: nil, mkState end2 (Some H) false d2, Ok true).
Proof.
  destruct step_run as (G & H & SR). exists H. unfold ml_fit, fit. change (load_data state2 (data_args (class_dim (ml_class m2)) kw2)) with (loaded2, Ok tt : res unit). cbn iota beta.
  change (ParamModel.flat_params (s_params (loaded2))) with (Ok [ln 2; 0; 0; 0] : res (list R)). cbn iota beta.
  change (String.eqb (lower "Newton") "newton") with true. cbn iota. change (Z.to_nat 20) with 20%nat. unfold loaded2; cbn [newton_loop s_data s_params]. rewrite SR. cbn iota beta.
  cbn [inner]. change (v_op (f_sub (fit_of m2 la)) [ln 2; 0; 0; 0] (map (f_mul (fit_of m2 la) (f_one (fit_of m2 la))) (firstn 4 step2))) with (Ok (free_entries end2) : res (list R)). cbn iota beta.
  change (reshape_params start2 (free_entries end2)) with (Ok end2 : res (list (param R))). cbn iota beta. rewrite trial_run. cbn iota beta.
  destruct (pen_progress g Hg) as (P1 & P2 & P3). cbn [fit_of f_ge]. unfold Rge_b. destruct (Rge_dec _ _) as [_|N]; [|exfalso; apply N; unfold Rdiv; lra]. cbn iota.
  unfold criterion. cbn [fit_of f_div f_lt f_abs f_sub f_one]. unfold Rdiv_py. destruct (Req_EM_T _ 0) as [Z|_]; [exfalso; lra|]. cbn [rbind]. unfold Rlt_b.
  match goal with |- context [Rlt_dec ?a ?b] => destruct (Rlt_dec a b) as [_|N] end.
  - reflexivity.
  - exfalso. apply N. replace (goal m2 d2 ([2%nat; 3%nat], []) nil start2 / 9 / (goal m2 d2 ([2%nat; 3%nat], []) nil end2 / 9)) with (goal m2 d2 ([2%nat; 3%nat], []) nil start2 / goal m2 d2 ([2%nat; 3%nat], []) nil end2); [exact P3|]. field. lra.
Qed.
End fits.
