(** When the [eval] of an object (ETModel.v) agrees with a dense function, and the
    primitive functions and Affine. *)
From Verif Require Import Prelude DenseModel AnalyticSpec DenseProofs NDArray NDProofs TensorModel TensorSpec TensorSpecOps TensorLemmas TensorBasic TensorSum TensorSumMain TensorBin TensorArith TensorShape TensorExpand TensorGeneric TensorGSum TensorDotCore TensorDot TensorUfunc TensorUfuncP FuncModel FuncSpec FTModel FTRep FTRep2 FTRep3 FTVal FTDiag FTRefine FTPrim FTAffine FTWrap FTSum LTModel ETModel.
From Verif Require FuncPrim FuncCompose FuncWrapP FuncLemmas FuncAffine FuncSum.
From Coq Require Import Reals Lra.
Import List ListNotations.
Open Scope R_scope.
Section ex.
Context {ex : exdims}.

(** the three results of eval, for the dense parameters [qs] *)
Definition eres (ss : list pst) (out : pst) (mf : list nat) (dep : nat -> bool) (col : bool) (sf : sfun) (qs : list dt) (e : evalP) : Prop :=
  let '(v, gs, hs) := e in
  vrel col out v (val (f_call sf qs)) /\ length gs = length ss /\ length hs = length ss /\
  (forall i, (i < length ss)%nat -> rep (dep i) (Qm mf) (gsh (nth i ss ([], [])) out) (nth i gs tzero) (get (val (f_grad sf qs i)))) /\
  (forall i, (i < length ss)%nat -> length (nth i hs []) = Datatypes.S i /\
    forall j, (j <= i)%nat -> rep false (Qm mf) (hsh (nth i ss ([], [])) (nth j ss ([], [])) out) (nth j (nth i hs []) tzero) (get (val (f_hess sf qs i j)))).
Definition eok (ss : list pst) (out : pst) (D : list dt -> Prop) (mf : list nat) (dep : nat -> bool) (col : bool) (o : tobj) (sf : sfun) : Prop :=
  forall ps qs, prms ss ps qs -> D qs -> exists e, o_eval o ps = Ok e /\ eres ss out mf dep col sf qs e.

Lemma rnth_nth {A} (l : list A) i d : (i < length l)%nat -> rnth l i = Ok (nth i l d).
Proof. intros H. unfold rnth. now rewrite (nth_error_nth' l d H). Qed.
Lemma rnth2_nth (h : list (list pval)) i j d : (i < length h)%nat -> (j < length (nth i h []))%nat -> rnth2 h i j = Ok (nth j (nth i h []) d).
Proof. intros H1 H2. unfold rnth2. rewrite (rnth_nth h i [] H1). cbn [rbind]. now apply rnth_nth. Qed.
Lemma rmapM_seq {B} (f : nat -> res B) (P : nat -> B -> Prop) d n : (forall i, (i < n)%nat -> exists b, f i = Ok b /\ P i b) ->
  exists bs, rmapM f (seq 0 n) = Ok bs /\ length bs = n /\ forall i, (i < n)%nat -> P i (nth i bs d).
Proof.
  intros H. destruct (rmapM_all f P (seq 0 n)) as (bs & E & F); [intros i Hi; apply in_seq in Hi; apply H; lia|].
  pose proof (Forall2_length' _ _ _ F) as L. rewrite seq_length in L. exists bs. split; [exact E|]. split; [now symmetry|]. intros i Hi.
  pose proof (FuncCompose.Forall2_nth _ _ _ i 0%nat d F ltac:(now rewrite seq_length)) as Hp. now rewrite seq_nth in Hp by exact Hi.
Qed.
Lemma rmapM_list {A B} (f : A -> res B) (da : A) (db : B) l : (forall i, (i < length l)%nat -> exists b, f (nth i l da) = Ok b) ->
  exists bs, rmapM f l = Ok bs /\ length bs = length l /\ forall i, (i < length l)%nat -> f (nth i l da) = Ok (nth i bs db).
Proof.
  induction l as [|a l IH]; intros H; [exists []; split; [reflexivity|split; [reflexivity|cbn; intros; lia]]|].
  destruct (H 0%nat ltac:(cbn; lia)) as (b & Eb). cbn [nth] in Eb. destruct IH as (bs & E & L & V); [intros i Hi; apply (H (Datatypes.S i)); cbn; lia|].
  exists (b :: bs). cbn [rmapM]. rewrite Eb. cbn [rbind]. rewrite E. split; [reflexivity|]. split; [cbn; congruence|]. intros [|i] Hi; [exact Eb|]. cbn in Hi |- *. apply V. lia.
Qed.

(** the results of eval read as a function object *)
Theorem eok_refines ss out D mf dep col o sf : refines ss out D mf dep col (o_f o) sf -> eok ss out D mf dep col o sf -> refines ss out D mf dep col (of_eval o) sf.
Proof.
  intros Rf H. constructor; try apply Rf.
  - intros ps qs Pp d. destruct (H ps qs Pp d) as ([[v gs] hs] & E & V & _). cbn [of_eval t_call]. rewrite E. cbn [rbind]. exists v. auto.
  - intros ps qs i Pp d Hi. destruct (H ps qs Pp d) as ([[v gs] hs] & E & _ & L & _ & G & _). cbn [of_eval t_grad]. rewrite E. cbn [rbind]. exists (nth i gs tzero). split; [apply rnth_nth; lia|now apply G].
  - intros ps qs i j Pp d Hi Hj. destruct (H ps qs Pp d) as ([[v gs] hs] & E & _ & _ & L & _ & G). cbn [of_eval t_hess]. rewrite E. cbn [rbind]. destruct (G i Hi) as [Lr Gr].
    exists (nth j (nth i hs []) tzero). split; [apply rnth2_nth; lia|now apply Gr].
Qed.
Lemma eok_domain ss out (D D' : list dt -> Prop) mf dep col o sf : (forall ps, D' ps -> D ps) -> eok ss out D mf dep col o sf -> eok ss out D' mf dep col o sf.
Proof. intros H E ps qs Pp d. apply E; auto. Qed.

(** *** the eval of FuncMeta *)
Lemma default_eok ss out D mf dep col f ev sf : (forall ps, length ps = length ss -> ev ps = default_eval f ps) -> refines ss out D mf dep col f sf -> eok ss out D mf dep col (mkTO f ev) sf.
Proof.
  intros Eq Rf ps qs Pp d. cbn [o_eval]. pose proof (proj1 Pp) as L. rewrite (Eq ps L). unfold default_eval. destruct (rf_call _ _ _ _ _ _ _ _ Rf ps qs Pp d) as (v & Ev & V). rewrite Ev. cbn [rbind]. unfold ders, hesses. rewrite L.
  destruct (rmapM_seq (t_grad f ps) (fun i v => rep (dep i) (Qm mf) (gsh (nth i ss ([], [])) out) v (get (val (f_grad sf qs i)))) tzero (length ss)) as (gs & Eg & Lg & G).
  { intros i Hi. exact (rf_grad _ _ _ _ _ _ _ _ Rf ps qs i Pp d Hi). }
  destruct (rmapM_seq (fun i => rmapM (t_hess f ps i) (seq 0 (Datatypes.S i)))
    (fun i row => length row = Datatypes.S i /\ forall j, (j <= i)%nat -> rep false (Qm mf) (hsh (nth i ss ([], [])) (nth j ss ([], [])) out) (nth j row tzero) (get (val (f_hess sf qs i j)))) [] (length ss)) as (hs & Eh & Lh & H).
  { intros i Hi. destruct (rmapM_seq (t_hess f ps i) (fun j v => rep false (Qm mf) (hsh (nth i ss ([], [])) (nth j ss ([], [])) out) v (get (val (f_hess sf qs i j)))) tzero (Datatypes.S i)) as (row & Er & Lr & R0).
    - intros j Hj. apply (rf_hess _ _ _ _ _ _ _ _ Rf ps qs i j Pp d Hi). lia.
    - exists row. split; [exact Er|]. split; [exact Lr|]. intros j Hj. apply R0. lia. }
  rewrite Eg. cbn [rbind]. rewrite Eh. cbn [rbind]. exists (v, gs, hs). split; [reflexivity|]. repeat (split; [assumption|]). exact H.
Qed.

(** *** functions of one parameter *)
Definition eform (s : pst) (E : list nat) (D : list dt -> Prop) (o : tobj) (sf : sfun) : Prop :=
  forall ps qs, prms (s :: nil) ps qs -> D qs -> exists t g h, o_eval o ps = Ok (PT t, [PT g], [[PT h]]) /\
    pv (flat s, E) (PT t) (parr (val (f_call sf qs))) /\
    (xfits (SH (flat s) [] (flat s) E) g /\ xm g = idm (length (flat s)) /\ ym g = [] /\
     tabeq (SH (flat s) [] (flat s) E) (get (den g)) (get (val (f_grad sf qs 0)))) /\
    (xfits (SH (flat s) (flat s) (flat s) E) h /\ xm h = idm (length (flat s)) /\ ym h = idm (length (flat s)) /\
     tabeq (SH (flat s) (flat s) (flat s) E) (get (den h)) (get (val (f_hess sf qs 0 0)))).
Lemma default_eform s E D f ev sf : (forall p, ev [p] = default_eval f [p]) -> dform s E D f sf -> eform s E D (mkTO f ev) sf.
Proof.
  intros Eq F ps qs Pp d. destruct (prms_1 _ _ _ Pp) as (p & q & -> & -> & Hq & Pv). cbn [o_eval]. rewrite Eq. unfold default_eval, ders, hesses. cbn [length seq rmapM].
  destruct (df_call _ _ _ _ _ F _ _ Pp d) as (t & Et & Pt). destruct (df_grad _ _ _ _ _ F _ _ Pp d) as (g & Eg & Hg). destruct (df_hess _ _ _ _ _ F _ _ Pp d) as (h & Eh & Hh).
  rewrite Et. cbn [rbind]. rewrite Eg. cbn [rbind]. rewrite Eh. cbn [rbind]. exists t, g, h. auto.
Qed.
Lemma eform_domain s E (D D' : list dt -> Prop) o sf : (forall ps, D' ps -> D ps) -> eform s E D o sf -> eform s E D' o sf.
Proof. intros H F ps qs Pp d. apply F; auto. Qed.
Theorem eform_eok s E D o sf : eform s E D o sf -> eok (s :: nil) (flat s, E) D (seq 0 (length (flat s))) (fun _ => nonempty (flat s ++ E)) false o sf.
Proof.
  intros F ps qs Pp d. destruct (F ps qs Pp d) as (t & g & h & Ee & Pt & (Xg & Mg & Ng & Vg) & (Xh & Mh & Nh & Vh)). exists (PT t, [PT g], [[PT h]]). split; [exact Ee|].
  split; [right; exists t; auto|]. split; [reflexivity|]. split; [reflexivity|]. split.
  - intros [|i] Hi; [|cbn in Hi; lia]. cbn [nth]. apply (rep_PT _ (gsh s (flat s, E)) g); auto. rewrite Mg, Ng. apply Qm_idm.
  - intros [|i] Hi; [|cbn in Hi; lia]. split; [reflexivity|]. intros [|j] Hj; [|lia]. cbn [nth]. eapply rep_false. apply (rep_PT _ (hsh s s (flat s, E)) h); auto. rewrite Mh, Nh. apply Qm_idm2.
Qed.

(** *** the classes with their own eval: the same results as from FuncMeta's *)
Lemma Exp_eval p : o_eval o_Exp [p] = default_eval t_Exp [p].
Proof.
  unfold default_eval, ders, hesses. cbn [o_Exp o_eval t_Exp t_call t_grad t_hess length seq rmapM]. destruct (exp_tensor [p]) as [f|e]; cbn [rbind rmap]; [|reflexivity].
  destruct (grad_tensor (PT f) [p] 0 MTrue (dm f)); cbn [rbind rmap]; [|reflexivity]. destruct (hess_tensor (PT f) [p] 0 0 MTrue MTrue (dm f)); reflexivity.
Qed.
Lemma Logistic_eval p : o_eval o_Logistic [p] = default_eval t_Logistic [p].
Proof.
  unfold default_eval, ders, hesses. cbn [o_Logistic o_eval t_Logistic t_call t_grad t_hess length seq rmapM]. unfold rnth. cbn [nth_error rbind]. destruct (np1 expit p) as [f|e]; cbn [rbind rmap]; [|reflexivity].
  destruct (as_tensor f); cbn [rbind rmap]; [|reflexivity]. destruct (logis1 f) as [v1|e]; cbn [rbind rmap]; [|reflexivity]. destruct (grad_tensor v1 [p] 0 MTrue 0); cbn [rbind rmap]; [|reflexivity].
  destruct (logis2 f) as [v2|e]; cbn [rbind rmap]; [|reflexivity]. destruct (hess_tensor v2 [p] 0 0 MTrue MTrue 0); reflexivity.
Qed.
Lemma rows_eval_default size F dF ddF p : rows_eval size F dF ddF [p] = default_eval (t_rows size F dF ddF) [p].
Proof.
  unfold default_eval, ders, hesses, rows_eval. cbn [t_rows t_call t_grad t_hess length seq rmapM]. unfold rnth. cbn [nth_error rbind]. destruct (asarray p) as [a|e]; cbn [rbind rmap]; [|reflexivity].
  destruct (Tensor (row_array a size F) 0 0 1 [] []); cbn [rbind rmap]; [|reflexivity]. destruct (grad_tensor (PArr (row_array a size dF)) [p] 0 MTrue 1); cbn [rbind rmap]; [|reflexivity].
  destruct (hess_tensor (PArr (row_array a size ddF)) [p] 0 0 MTrue MTrue 1); reflexivity.
Qed.

(** *** Affine *)
Theorem affine_eok ss out D mf dep col o sf a b : wellformed ss out sf -> a <> 0 -> b = 0 \/ col = false -> refines ss out D mf dep col (o_f o) sf ->
  eok ss out D mf dep col o sf -> eok ss out D mf dep col (o_affine o a b) (s_affine sf a b).
Proof.
  intros W Ha Hb R H ps qs Pp d. pose proof (rf_pos _ _ _ _ _ _ _ _ R) as P. pose proof (proj1 (proj2 Pp)) as Hs. destruct (H ps qs Pp d) as ([[v gs] hs] & E & V & Lg & Lh & G & Hh). cbn [o_affine o_eval]. unfold affine_eval. rewrite E. cbn [rbind].
  pose proof (FuncAffine.call_st W qs Hs) as Hq. destruct (vrel_scale col out v _ a P Ha Hq V) as (u & Eu & Vu). rewrite Eu. cbn [rbind].
  destruct (vrel_shift col out u (dscal a (val (f_call sf qs))) b P Hb Hq Vu) as (v' & Ev' & Vv'). rewrite Ev'. cbn [rbind].
  destruct (rmapM_list (py OMul (PNum a)) tzero tzero gs) as (gs' & Eg & Lg' & Vg). { intros i Hi. rewrite Lg in Hi. destruct (rscale _ _ _ _ _ a Ha (G i Hi)) as (x & Ex & _). eauto. }
  rewrite Eg. cbn [rbind].
  destruct (rmapM_list (rmapM (py OMul (PNum a))) [] [] hs) as (hs' & Eh & Lh' & Vh).
  { intros i Hi. rewrite Lh in Hi. destruct (Hh i Hi) as [Lr Vr]. destruct (rmapM_list (py OMul (PNum a)) tzero tzero (nth i hs [])) as (row & Er & _ & _); [|eauto].
    intros j Hj. rewrite Lr in Hj. destruct (rscale _ _ _ _ _ a Ha (Vr j ltac:(lia))) as (x & Ex & _). eauto. }
  rewrite Eh. cbn [rbind]. exists (v', gs', hs'). split; [reflexivity|]. split; [|split; [congruence|split; [congruence|split]]].
  - rewrite (FuncAffine.affine_call ss out sf a b qs W Hs). exact Vv'.
  - intros i Hi. specialize (Vg i ltac:(lia)). destruct (rscale _ _ _ _ _ a Ha (G i Hi)) as (x & Ex & Rx). rewrite Ex in Vg. injection Vg as <-.
    destruct (FuncAffine.affine_grad ss out sf a b qs i W Hs Hi) as (g & -> & _ & Dg). cbn [val]. eapply rep_ext; [exact Rx|]. intros x' y n e _. now rewrite (Dg x' y n e), get_dscal.
  - intros i Hi. specialize (Vh i ltac:(lia)). destruct (Hh i Hi) as [Lr Vr]. destruct (rmapM_list (py OMul (PNum a)) tzero tzero (nth i hs [])) as (row & Er & Lr' & Vr').
    { intros j Hj. rewrite Lr in Hj. destruct (rscale _ _ _ _ _ a Ha (Vr j ltac:(lia))) as (x & Ex & _). eauto. }
    rewrite Er in Vh. injection Vh as <-. split; [congruence|]. intros j Hj. specialize (Vr' j ltac:(lia)). destruct (rscale _ _ _ _ _ a Ha (Vr j Hj)) as (x & Ex & Rx). rewrite Ex in Vr'. injection Vr' as <-.
    destruct (FuncAffine.affine_hess ss out sf a b qs i j W Hs Hi Hj) as (g & -> & _ & Dg). cbn [val]. eapply rep_ext; [exact Rx|]. intros x' y n e _. now rewrite (Dg x' y n e), get_dscal.
Qed.
Theorem affine_eform s E D o sf a b : wellformed (s :: nil) (flat s, E) sf -> a <> 0 -> dform s E D (o_f o) sf -> eform s E D o sf -> eform s E D (o_affine o a b) (s_affine sf a b).
Proof.
  intros W Ha F H ps qs Pp d. assert (P : posl (flat (flat s, E))) by (apply Forall_app; split; [exact (df_ps _ _ _ _ _ F)|exact (df_pe _ _ _ _ _ F)]).
  pose proof (proj1 (proj2 Pp)) as Hs. pose proof (FuncAffine.call_st W qs Hs) as Hq. destruct (df_ng _ _ _ _ _ F) as [N1 N2]. destruct (df_nh _ _ _ _ _ F) as [N3 N4].
  destruct (H ps qs Pp d) as (t & g & h & Ee & Pt & (Xg & Mg & Ng & Vg) & (Xh & Mh & Nh & Vh)). cbn [o_affine o_eval]. unfold affine_eval. rewrite Ee. cbn [rbind].
  destruct (vrel_scale false (flat s, E) (PT t) _ a P Ha Hq) as (u & Eu & Vu); [right; eauto|]. rewrite Eu. cbn [rbind].
  destruct (vrel_shift false (flat s, E) u (dscal a (val (f_call sf qs))) b P (or_intror eq_refl) Hq Vu) as (w & Ew & [(? & _)|(r & -> & Pr)]); [discriminate|]. rewrite Ew. cbn [rbind rmapM].
  destruct (xscale _ g a Ha Xg) as (g' & Eg & Xg' & Mg' & Ng' & _ & Vg'). destruct (xscale _ h a Ha Xh) as (h' & Eh & Xh' & Mh' & Nh' & _ & Vh').
  unfold py. cbn [tbin reflected tbin1]. rewrite Eg. cbn [rbind]. rewrite Eh. cbn [rbind]. exists r, g', h'. split; [reflexivity|]. split; [|split].
  - rewrite (FuncAffine.affine_call _ _ sf a b qs W Hs). exact Pr.
  - split; [exact Xg'|]. split; [congruence|]. split; [congruence|]. cbn [s_affine f_grad]. rewrite N2, (FuncAffine.grad_ok W qs 0 Hs ltac:(cbn; lia)). cbn [rbind val]. intros x y n e Hi. rewrite Vg', get_dscal by exact Hi. now rewrite Vg.
  - split; [exact Xh'|]. split; [congruence|]. split; [congruence|]. cbn [s_affine f_hess]. rewrite N4, (FuncAffine.hess_ok W qs 0 0 Hs ltac:(cbn; lia) (le_n 0)). cbn [rbind val]. intros x y n e Hi. rewrite Vh', get_dscal by exact Hi. now rewrite Vh.
Qed.
End ex.
