(** The two-sided model of tests.py with its [eval], and the object that fits it:
    matrix tests.py:329-370. *)
From Coq Require Import String.
From Verif Require Import Prelude DenseModel AnalyticSpec DenseProofs NDArray NDProofs TensorModel TensorSpec TensorUfunc FuncModel FuncSpec FTModel FTSpec FTPrim FTWrap FTRep FTBuilt FTValue FTFindings LTModel LTLik LTSpec LTDer ETModel ETSpec ETBuilt ParamModel ParamSpec AssembleModel AssembleSpec OTModel OTSpec OTSim2 OTCurve OTThm Props_FT Props_LT Props_OT Props_ET FTTwoSided Props_Sided NTModel NTSpec NTThm.
From Verif Require FuncLemmas.
From Coquelicot Require Import Coquelicot.
From Coq Require Import Reals Lra Sorted.
Import List ListNotations.
Open Scope R_scope.
#[local] Existing Instance loose.

(** [side], [rate], [both] and [two_sided] (FTTwoSided.v) as objects with eval *)
Definition sideo (sg : R) : tobj := o_sum [(1, o_wrap wa o_X); (-1, o_wrap wb o_X); (sg, o_wrap wh o_Scalar)] 0.
Definition rateo (sg : R) : tobj := o_compose o_Exp (sideo sg :: nil).
Definition botho : tobj := o_sum [(1, o_wrap wij (rateo 1)); (1, o_wrap wji (rateo (-1)))] 0.
Definition two_sidedo : tobj := o_compose o_Log (botho :: nil).
Lemma two_sidedo_f : o_f two_sidedo = two_sided.
Proof. reflexivity. Qed.

Section TwoSidedFit.
Variable N : nat.
Hypothesis HN : (1 <= N)%nat.
Let V : pst := ((N :: nil), []).
Notation ss := (sides N).
Definition sideo_atoms (sg : R) : list eatom :=
  [mkEAtom 1 (o_wrap wa o_X) ([N; 1]%nat, []) (0%nat :: nil) (wdep wa (fun _ => true)) false;
   mkEAtom (-1) (o_wrap wb o_X) ([1; N]%nat, []) (1%nat :: nil) (wdep wb (fun _ => true)) false;
   mkEAtom sg (o_wrap wh o_Scalar) ([1; 1]%nat, []) [] (wdep wh (fun _ => true)) true].
Definition botho_atoms : list eatom :=
  [mkEAtom 1 (o_wrap wij (rateo 1)) ([N; N]%nat, []) [0; 1]%nat (wdep wij (fun _ => true)) false;
   mkEAtom 1 (o_wrap wji (rateo (-1))) ([N; N]%nat, []) [1; 0]%nat (wdep wji (fun _ => true)) false].
Lemma e_any out mf dep col f (m : list pval -> list pval) : ebuilt ss out (fun ps => anyP (m ps)) mf dep col f -> ebuilt ss out anyP mf dep col f.
Proof. intros T. eapply eb_domain; [|exact T]. intros; exact I. Qed.
Lemma o_X_V : ebuilt (V :: nil) V anyP (0%nat :: nil) (fun _ => true) false o_X.
Proof. apply (eb_X (N :: nil)). repeat constructor; exact HN. Qed.
Lemma sideo_atoms_built h a : h <> 0 -> In a (sideo_atoms h) -> ebuilt ss (ea_o a) anyP (ea_mf a) (ea_dep a) (ea_col a) (ea_x a).
Proof.
  intros Hh [<-|[<-|[<-|[]]]]; cbn [ea_o ea_mf ea_dep ea_col ea_x].
  - apply (e_any _ _ _ _ _ (fun ps => map (fun k => nth k ps (PNum 0)) (0%nat :: nil))).
    apply (eb_wrap ss V anyP (0 :: nil)%nat (fun _ => true) false wa o_X).
    + apply one_nodup. + repeat constructor. + constructor; cbn; auto; repeat constructor; auto. + left; repeat constructor. + now left. + apply o_X_V.
  - apply (e_any _ _ _ _ _ (fun ps => map (fun k => nth k ps (PNum 0)) (1%nat :: nil))).
    apply (eb_wrap ss V anyP (0 :: nil)%nat (fun _ => true) false wb o_X).
    + apply one_nodup. + repeat constructor. + constructor; cbn; auto; repeat constructor; auto. + left; repeat constructor. + now left. + apply o_X_V.
  - apply (e_any _ _ _ _ _ (fun ps => map (fun k => nth k ps (PNum 0)) (2%nat :: nil))).
    apply (eb_wrap ss ([], []) anyP [] (fun _ => true) false wh o_Scalar).
    + apply one_nodup. + repeat constructor. + constructor; cbn; auto; repeat constructor; auto. + left; repeat constructor. + now left. + apply eb_Scalar.
Qed.
Lemma sideo_outs h : map ea_o (sideo_atoms h) = map ta_o (side_atoms N h).
Proof. reflexivity. Qed.
Lemma botho_outs : map ea_o botho_atoms = map ta_o (both_atoms N).
Proof. reflexivity. Qed.
Lemma sideo_built h : h <> 0 -> ebuilt ss ([N; N]%nat, []) anyP [0; 1]%nat (fun i => existsb (fun a => ea_dep a i) (sideo_atoms h)) false (sideo h).
Proof.
  intros Hh. rewrite <- (side_join N HN h), <- sideo_outs. apply (eb_sum ss anyP (sideo_atoms h)).
  - apply sides_pos, HN. - discriminate. - repeat constructor; cbn; auto; lra. - rewrite sideo_outs. apply side_bc, HN. - rewrite sideo_outs, side_join by exact HN. discriminate.
  - repeat constructor.
  - rewrite sideo_outs, side_join by exact HN. repeat apply Forall_cons; [| | |apply Forall_nil]; cbn; intros f Hf; repeat destruct Hf as [<-|Hf]; try reflexivity; destruct Hf.
  - intros a Ha. now apply (sideo_atoms_built h).
Qed.
Lemma rateo_built h : h <> 0 -> ebuilt ss ([N; N]%nat, []) anyP [0; 1]%nat (fun _ => true) false (rateo h).
Proof.
  intros Hh. apply (eb_domain _ _ (fun ps => (forall v, t_call (o_f (sideo h)) ps = Ok v -> anyP (v :: nil)) /\ anyP ps)); [intros; split; [intros; exact I|exact I]|].
  apply (eb_compose ss ([N; N]%nat, []) [] anyP anyP [0; 1]%nat (fun i => existsb (fun a => ea_dep a i) (sideo_atoms h)) o_Exp (sideo h)).
  - apply sides_pos, HN. - discriminate. - intros [|[|[|i]]] Hi; [reflexivity|reflexivity|reflexivity|cbn in Hi; lia].
  - apply (eo_Exp [N; N]). repeat constructor; exact HN.
  - now apply sideo_built.
Qed.
Lemma botho_atoms_built a : In a botho_atoms -> ebuilt ss (ea_o a) anyP (ea_mf a) (ea_dep a) (ea_col a) (ea_x a).
Proof.
  intros [<-|[<-|[]]]; cbn [ea_o ea_mf ea_dep ea_col ea_x].
  - apply (e_any _ _ _ _ _ (fun ps => map (fun k => nth k ps (PNum 0)) [0; 1; 2]%nat)).
    apply (eb_wrap ss ([N; N]%nat, []) anyP [0; 1]%nat (fun _ => true) false wij (rateo 1)).
    + now apply (abc_nodup N). + repeat constructor. + now apply (wij_ok N). + left; repeat constructor. + now left. + apply (rateo_built 1 ltac:(lra)).
  - apply (e_any _ _ _ _ _ (fun ps => map (fun k => nth k ps (PNum 0)) [0; 1; 2]%nat)).
    apply (eb_wrap ss ([N; N]%nat, []) anyP [0; 1]%nat (fun _ => true) false wji (rateo (-1))).
    + now apply (abc_nodup N). + repeat constructor. + now apply (wji_ok N). + left; repeat constructor. + now left. + apply (rateo_built (-1) ltac:(lra)).
Qed.
Lemma botho_built : ebuilt ss ([N; N]%nat, []) anyP [0; 1; 1; 0]%nat (fun i => existsb (fun a => ea_dep a i) botho_atoms) false botho.
Proof.
  rewrite <- (both_join N HN), <- botho_outs. apply (eb_sum ss anyP botho_atoms).
  - apply sides_pos, HN. - discriminate. - repeat constructor; cbn; lra. - rewrite botho_outs. apply both_bc, HN. - rewrite botho_outs, both_join by exact HN. discriminate.
  - repeat constructor.
  - rewrite botho_outs, both_join by exact HN. repeat apply Forall_cons; [| |apply Forall_nil]; cbn; intros f Hf; repeat destruct Hf as [<-|Hf]; try reflexivity; destruct Hf.
  - exact botho_atoms_built.
Qed.
Lemma two_sidedo_built : ebuilt ss ([N; N]%nat, []) (are_pars ss) [0; 1; 1; 0]%nat (fun _ => true) false two_sidedo.
Proof.
  apply (eb_domain _ _ (fun ps => (forall v, t_call (o_f botho) ps = Ok v -> posP ([N; N]%nat, []) (v :: nil)) /\ anyP ps)).
  - intros ps Pp. split; [|exact I]. change (o_f botho) with both. intros v Ev x Hx.
    destruct (compose_value _ _ _ _ _ t_Log both _ (both_built N HN) Pp I) as (w & Ew & Pw & Ec & Vw). rewrite Ev in Ew. injection Ew as <-.
    unfold flat in Hx. cbn [fst snd] in Hx. rewrite app_nil_r in Hx. cbn [nth].
    pose proof (Vw x [] Hx (or_introl eq_refl)) as E. rewrite app_nil_r in E. rewrite E.
    destruct (ij_of N x Hx) as (i & j & -> & Hi & Hj). now apply (both_pos N HN).
  - apply (eb_compose ss ([N; N]%nat, []) [] (posP ([N; N]%nat, [])) anyP [0; 1; 1; 0]%nat (fun i => existsb (fun a => ea_dep a i) botho_atoms) o_Log botho).
    + apply sides_pos, HN. + discriminate. + intros [|[|[|i]]] Hi; [reflexivity|reflexivity|reflexivity|cbn in Hi; lia].
    + apply (eo_Log [N; N]). repeat constructor; exact HN.
    + exact botho_built.
Qed.
(** the domain: numpy arrays of the right shapes *)
Definition side_arrays (ps : list pval) : Prop := arrays ps /\ are_pars ss ps.
(** [Linear([1, 1])] on parameters 0 and 1, tests.py:347 *)
Definition sum_ab : term := mkTerm [0; 1]%nat (t_Linear [1; 1]) arrays
  (fun ps => over_params (sub_axes [0; 1]%nat ss) (fun i x => nth i [1; 1] 0 * par_entry ps i x)) (fun _ i _ => nth i [1; 1] 0).
Definition sided_mle (g : R -> R) : maxlike := mkMaxLike (Poisson g) two_sidedo (registration sum_ab :: nil) [].
Lemma two_sidedo_for : emodel_for ss ([N; N]%nat, []) side_arrays two_sidedo.
Proof.
  constructor; [|now apply sides_pos|split; [repeat constructor; exact HN|discriminate]]. eexists; eexists; eexists. split; [apply (eb_domain _ _ (are_pars ss)); [intros ps [_ A]; exact A|exact two_sidedo_built]|].
  split; [reflexivity|]. split; [apply ax_refl; repeat constructor; exact HN|]. split; [constructor|]. reflexivity.
Qed.
Lemma params_side q : params_ok q -> axes q = ss -> side_arrays (map arr_of q).
Proof. intros PO Ax. split; [apply (arrays_inside q)|]. rewrite <- Ax. now apply params_are. Qed.
Lemma sided_problem g d X W : d "X"%string = Some X -> d "N"%string = Some W -> is_data ([N; N]%nat, []) (PT X) -> is_data ([N; N]%nat, []) (PT W) ->
  fit_problem ss ([N; N]%nat, []) side_arrays (sided_mle g) d (sum_ab :: nil) [].
Proof.
  intros EX EW DX DW. constructor.
  - exact two_sidedo_for.
  - intros k [<-|[<-|[]]]; [rewrite EW|rewrite EX]; eexists; (split; [reflexivity|]); assumption.
  - reflexivity.
  - reflexivity.
  - intros c [<-|[]]. split; [discriminate|]. split; [repeat constructor|]. split; [cbn; repeat constructor|]. intros ps A [Ar _].
    unfold arrays in Ar. rewrite Forall_forall in Ar. pose proof (DenseProofs.Forall2_length' _ _ _ A) as L. cbn in L. constructor; [|constructor; [|constructor]]; apply Ar, nth_In; lia.
  - intros c [<-|[]]. apply (C78_linear (sub_axes [0; 1]%nat ss) [1; 1]); [repeat constructor; exact HN|reflexivity].
  - intros c [].
  - intros q PO Ax _. split; [now apply params_side|]. intros i a Hi Ha. apply filter_forall. intros t. apply params_side; [now apply set_ok|]. rewrite <- Ax. now apply set_axes.
Qed.
End TwoSidedFit.
