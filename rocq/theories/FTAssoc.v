(** Grouping of [@]: [(f1 @ f2) @ g] and [f1 @ (f2 @ g)] compute the same values,
    gradients and Hessians. *)
From Verif Require Import Prelude DenseModel AnalyticSpec DenseProofs NDArray NDProofs TensorModel TensorSpec TensorSpecOps TensorLemmas TensorBasic TensorSum TensorSumMain TensorBin TensorArith TensorShape TensorExpand TensorGeneric TensorGSum TensorDotCore TensorDot TensorUfunc TensorUfuncP FuncModel FuncSpec FTModel FTSpec FTRep FTRep2 FTRep3 FTVal FTDiag FTRefine FTPrim FTAffine FTNest FTWrap FTSum FTCompose FTBuilt.
From Verif Require FuncPrim FuncCompose FuncWrapP FuncLemmas FuncAffine FuncSum.
From Coquelicot Require Import Coquelicot.
From Coq Require Import Reals Lra.
Import List ListNotations.
Open Scope R_scope.

(** *** sums *)
Lemma assoc1 {X Y} (a : X -> R) (B : X -> Y -> R) (c : Y -> R) l l' :
  Rsum (fun q => Rsum (fun m => a m * B m q) l * c q) l' = Rsum (fun m => a m * Rsum (fun q => B m q * c q) l') l.
Proof.
  transitivity (Rsum (fun q => Rsum (fun m => a m * B m q * c q) l) l').
  - apply Rsum_ext. intros q _. symmetry. apply Rsum_scal_r.
  - rewrite Rsum_swap. apply Rsum_ext. intros m _. rewrite <- Rsum_scal. apply Rsum_ext. intros q _. ring.
Qed.
Lemma swap2 {X Y} (a : X -> R) (b : Y -> R) (W : X -> Y -> R) l l' :
  Rsum (fun q => b q * Rsum (fun n => a n * W n q) l) l' = Rsum (fun n => a n * Rsum (fun q => b q * W n q) l') l.
Proof.
  transitivity (Rsum (fun q => Rsum (fun n => a n * (b q * W n q)) l) l').
  - apply Rsum_ext. intros q _. rewrite <- Rsum_scal. apply Rsum_ext. intros n _. ring.
  - rewrite Rsum_swap. apply Rsum_ext. intros n _. apply Rsum_scal.
Qed.
Lemma hess_sums {X Y} (gx gy : X -> R) (F2 : X -> Y -> R) (H1 : Y -> Y -> R) (H2 : X -> X -> Y -> R) (F1 : Y -> R) (hg : X -> R) l l' :
  Rsum (fun M => gy M * Rsum (fun N => gx N * (Rsum (fun Q => F2 M Q * Rsum (fun P => F2 N P * H1 P Q) l') l' + Rsum (fun P => H2 N M P * F1 P) l')) l) l
    + Rsum (fun N => hg N * Rsum (fun P => F2 N P * F1 P) l') l =
  Rsum (fun Q => Rsum (fun M => gy M * F2 M Q) l * Rsum (fun P => Rsum (fun N => gx N * F2 N P) l * H1 P Q) l') l'
    + Rsum (fun P => (Rsum (fun M => gy M * Rsum (fun N => gx N * H2 N M P) l) l + Rsum (fun N => hg N * F2 N P) l) * F1 P) l'.
Proof.
  assert (T1 : Rsum (fun Q => Rsum (fun M => gy M * F2 M Q) l * Rsum (fun P => Rsum (fun N => gx N * F2 N P) l * H1 P Q) l') l' =
    Rsum (fun M => gy M * Rsum (fun N => gx N * Rsum (fun Q => F2 M Q * Rsum (fun P => F2 N P * H1 P Q) l') l') l) l).
  { rewrite (assoc1 gy F2 (fun Q => Rsum (fun P => Rsum (fun N => gx N * F2 N P) l * H1 P Q) l')). apply Rsum_ext. intros M _. f_equal.
    rewrite <- (swap2 gx (F2 M) (fun N Q => Rsum (fun P => F2 N P * H1 P Q) l')). apply Rsum_ext. intros Q _. f_equal. apply (assoc1 gx F2 (fun P => H1 P Q)). }
  assert (T2 : Rsum (fun P => Rsum (fun M => gy M * Rsum (fun N => gx N * H2 N M P) l) l * F1 P) l' =
    Rsum (fun M => gy M * Rsum (fun N => gx N * Rsum (fun P => H2 N M P * F1 P) l') l) l).
  { rewrite (assoc1 gy (fun M P => Rsum (fun N => gx N * H2 N M P) l) F1). apply Rsum_ext. intros M _. f_equal. apply (assoc1 gx (fun N P => H2 N M P) F1). }
  rewrite T1. rewrite <- (assoc1 hg F2 F1).
  transitivity (Rsum (fun M => gy M * Rsum (fun N => gx N * Rsum (fun Q => F2 M Q * Rsum (fun P => F2 N P * H1 P Q) l') l') l) l
    + (Rsum (fun P => Rsum (fun M => gy M * Rsum (fun N => gx N * H2 N M P) l) l * F1 P) l' + Rsum (fun P => Rsum (fun N => hg N * F2 N P) l * F1 P) l')).
  - rewrite T2. rewrite <- Rplus_assoc. f_equal. rewrite <- Rsum_plus. apply Rsum_ext. intros M _. rewrite <- Rmult_plus_distr_l. f_equal. rewrite <- Rsum_plus. apply Rsum_ext. intros N _. ring.
  - f_equal. rewrite <- Rsum_plus. apply Rsum_ext. intros P _. ring.
Qed.

(** *** the dense compositions *)
Section Dense.
Context (ss : list pst) (s o out : pst) (f1 f2 g : sfun).
Hypothesis W1 : wellformed (o :: nil) out f1.
Hypothesis W2 : wellformed (s :: nil) o f2.
Hypothesis Wg : wellformed ss s g.
Notation L := (s_compose (s_compose f1 (f2 :: nil)) (g :: nil)).
Notation RR := (s_compose f1 (s_compose f2 (g :: nil) :: nil)).
Lemma one {f s' t} : wellformed s' t f -> Forall2 (fun g o => wellformed s' o g) (f :: nil) (t :: nil).
Proof. intros H. constructor; [exact H|constructor]. Qed.
Lemma W12 : wellformed (s :: nil) out (s_compose f1 (f2 :: nil)).
Proof. exact (FuncCompose.compose_wf (s :: nil) (o :: nil) out f1 (f2 :: nil) W1 (one W2)). Qed.
Lemma W2g : wellformed ss o (s_compose f2 (g :: nil)).
Proof. exact (FuncCompose.compose_wf ss (s :: nil) o f2 (g :: nil) W2 (one Wg)). Qed.
Lemma CG_1 s' (h k : sfun) ps i x n d : FuncCompose.CG (s' :: nil) h (k :: nil) ps i x n d =
  Rsum (fun N => get (val (f_grad k ps i)) x [] (firstn (length (fst s')) N) (skipn (length (fst s')) N) * get (val (f_grad h (val (f_call k ps) :: nil) 0)) N [] n d) (indices (flat s')).
Proof. unfold FuncCompose.CG. cbn [length seq]. rewrite Rsum_cons, Rsum_nil, Rplus_0_r. reflexivity. Qed.
Lemma CH_1 s' (h k : sfun) ps i j x y n d : FuncCompose.CH (s' :: nil) h (k :: nil) ps i j x y n d =
  Rsum (fun M => get (val (f_grad k ps j)) y [] (firstn (length (fst s')) M) (skipn (length (fst s')) M) *
    Rsum (fun N => get (val (f_grad k ps i)) x [] (firstn (length (fst s')) N) (skipn (length (fst s')) N) * hess_at h (val (f_call k ps) :: nil) 0 0 N M n d) (indices (flat s'))) (indices (flat s'))
  + Rsum (fun N => hess_at k ps i j x y (firstn (length (fst s')) N) (skipn (length (fst s')) N) * get (val (f_grad h (val (f_call k ps) :: nil) 0)) N [] n d) (indices (flat s')).
Proof. unfold FuncCompose.CH. cbn [length seq]. rewrite !Rsum_cons, !Rsum_nil, !Rplus_0_r. reflexivity. Qed.
Section At.
Context (ps : list dt).
Hypothesis Hp : has_sts ps ss.
Lemma mid_st : has_sts (val (f_call g ps) :: nil) (s :: nil).
Proof. constructor; [exact (FuncAffine.call_st Wg ps Hp)|constructor]. Qed.
Lemma grad_of ss' s' t (h k : sfun) qs i : wellformed (s' :: nil) t h -> wellformed ss' s' k -> has_sts qs ss' -> (i < length ss')%nat ->
  forall x n d, get (val (f_grad (s_compose h (k :: nil)) qs i)) x [] n d = FuncCompose.CG (s' :: nil) h (k :: nil) qs i x n d.
Proof.
  intros Wh Wk Hq Hi x n d. destruct (FuncCompose.compose_grad_ok ss' (s' :: nil) t h (k :: nil) Wh (one Wk) qs i Hq Hi) as (r & E & _ & V). rewrite E. cbn [val]. apply V.
Qed.
Lemma hess_of ss' s' t (h k : sfun) qs i j : wellformed (s' :: nil) t h -> wellformed ss' s' k -> has_sts qs ss' -> (i < length ss')%nat -> (j <= i)%nat ->
  forall x y n d, get (val (f_hess (s_compose h (k :: nil)) qs i j)) x y n d = FuncCompose.CH (s' :: nil) h (k :: nil) qs i j x y n d.
Proof.
  intros Wh Wk Hq Hi Hj x y n d. destruct (FuncCompose.compose_hess_ok ss' (s' :: nil) t h (k :: nil) Wh (one Wk) qs i j Hq Hi Hj) as (r & E & _ & V). rewrite E. cbn [val]. apply V.
Qed.
Lemma call_of : val (f_call (s_compose f2 (g :: nil)) ps) = val (f_call f2 (val (f_call g ps) :: nil)).
Proof. rewrite (FuncCompose.compose_call_ok ss (s :: nil) o f2 (g :: nil) W2 (one Wg) ps Hp). reflexivity. Qed.
Lemma dense_grad_assoc i x n d : (i < length ss)%nat -> get (val (f_grad L ps i)) x [] n d = get (val (f_grad RR ps i)) x [] n d.
Proof.
  intros Hi. rewrite (grad_of ss s out _ g ps i W12 Wg Hp Hi), (grad_of ss o out f1 _ ps i W1 W2g Hp Hi), !CG_1, call_of.
  transitivity (Rsum (fun N => get (val (f_grad g ps i)) x [] (firstn (length (fst s)) N) (skipn (length (fst s)) N) *
     Rsum (fun M => get (val (f_grad f2 (val (f_call g ps) :: nil) 0)) N [] (firstn (length (fst o)) M) (skipn (length (fst o)) M) * get (val (f_grad f1 (val (f_call f2 (val (f_call g ps) :: nil)) :: nil) 0)) M [] n d) (indices (flat o))) (indices (flat s))).
  - apply Rsum_ext. intros N _. f_equal. rewrite (grad_of (s :: nil) o out f1 f2 _ 0 W1 W2 mid_st (Nat.lt_0_succ 0)). apply CG_1.
  - rewrite <- assoc1. apply Rsum_ext. intros M _. f_equal. rewrite (grad_of ss s o f2 g ps i W2 Wg Hp Hi). symmetry. apply CG_1.
Qed.
Lemma hess_at_le (h : sfun) qs i j x y n d : (j <= i)%nat -> hess_at h qs i j x y n d = get (val (f_hess h qs i j)) x y n d.
Proof. intros H. unfold hess_at. apply Nat.leb_le in H. now rewrite H. Qed.
Lemma dense_hess_assoc i j x y n d : (i < length ss)%nat -> (j <= i)%nat -> get (val (f_hess L ps i j)) x y n d = get (val (f_hess RR ps i j)) x y n d.
Proof.
  intros Hi Hj. assert (Hj' : (j < length ss)%nat) by lia.
  rewrite (hess_of ss s out _ g ps i j W12 Wg Hp Hi Hj), (hess_of ss o out f1 _ ps i j W1 W2g Hp Hi Hj), !CH_1, call_of.
  set (v := val (f_call g ps)). set (w := val (f_call f2 (v :: nil))).
  set (P1 := fun M : idx => firstn (length (fst o)) M). set (P2 := fun M : idx => skipn (length (fst o)) M).
  set (S1 := fun M : idx => firstn (length (fst s)) M). set (S2 := fun M : idx => skipn (length (fst s)) M).
  pose proof (hess_sums (fun N => get (val (f_grad g ps i)) x [] (S1 N) (S2 N)) (fun M => get (val (f_grad g ps j)) y [] (S1 M) (S2 M))
    (fun N M => get (val (f_grad f2 (v :: nil) 0)) N [] (P1 M) (P2 M)) (fun P Q => hess_at f1 (w :: nil) 0 0 P Q n d)
    (fun N M P => hess_at f2 (v :: nil) 0 0 N M (P1 P) (P2 P)) (fun P => get (val (f_grad f1 (w :: nil) 0)) P [] n d)
    (fun N => hess_at g ps i j x y (S1 N) (S2 N)) (indices (flat s)) (indices (flat o))) as HS. cbn beta in HS.
  transitivity (Rsum (fun M => get (val (f_grad g ps j)) y [] (S1 M) (S2 M) *
     Rsum (fun N => get (val (f_grad g ps i)) x [] (S1 N) (S2 N) *
        (Rsum (fun Q => get (val (f_grad f2 (v :: nil) 0)) M [] (P1 Q) (P2 Q) * Rsum (fun P => get (val (f_grad f2 (v :: nil) 0)) N [] (P1 P) (P2 P) * hess_at f1 (w :: nil) 0 0 P Q n d) (indices (flat o))) (indices (flat o)) +
         Rsum (fun P => hess_at f2 (v :: nil) 0 0 N M (P1 P) (P2 P) * get (val (f_grad f1 (w :: nil) 0)) P [] n d) (indices (flat o)))) (indices (flat s))) (indices (flat s)) +
     Rsum (fun N => hess_at g ps i j x y (S1 N) (S2 N) * Rsum (fun P => get (val (f_grad f2 (v :: nil) 0)) N [] (P1 P) (P2 P) * get (val (f_grad f1 (w :: nil) 0)) P [] n d) (indices (flat o))) (indices (flat s))).
  - f_equal.
    + apply Rsum_ext. intros M _. f_equal. apply Rsum_ext. intros N _. f_equal. rewrite (hess_at_le _ _ 0 0) by lia.
      rewrite (hess_of (s :: nil) o out f1 f2 (v :: nil) 0 0 W1 W2 mid_st (Nat.lt_0_succ 0) (le_n 0)). apply CH_1.
    + apply Rsum_ext. intros N _. f_equal. rewrite (grad_of (s :: nil) o out f1 f2 (v :: nil) 0 W1 W2 mid_st (Nat.lt_0_succ 0)). apply CG_1.
  - rewrite HS. f_equal.
    + apply Rsum_ext. intros Q _. f_equal; [rewrite (grad_of ss s o f2 g ps j W2 Wg Hp Hj'); symmetry; apply CG_1|]. apply Rsum_ext. intros P _. f_equal. rewrite (grad_of ss s o f2 g ps i W2 Wg Hp Hi). symmetry. apply CG_1.
    + apply Rsum_ext. intros P _. f_equal. rewrite (hess_at_le _ _ i j) by lia. rewrite (hess_of ss s o f2 g ps i j W2 Wg Hp Hi Hj). symmetry. apply CH_1.
Qed.
End At.
End Dense.

(** *** the function objects *)
Section Tensors.
Context {ex : exdims}.
Context (ss : list pst) (s : pst) (E : list nat) (D1 D2 Dg : list pval -> Prop) (mf : list nat) (dep : nat -> bool) (f1 f2 g : tfun).
Hypothesis Pss : Forall (fun s => posl (flat s)) ss.
Hypothesis NK : flat s <> [].
Hypothesis Dep : forall i, (i < length ss)%nat -> dep i = true.
Hypothesis O1 : outer (flat s, []) E D1 f1.
Hypothesis O2 : outer s [] D2 f2.
Hypothesis Bg : tbuilt ss s Dg mf dep false g.
Notation L := (t_compose (t_compose f1 (f2 :: nil)) (g :: nil)).
Notation RR := (t_compose f1 (t_compose f2 (g :: nil) :: nil)).
Definition gdom (ps : list pval) : Prop := Dg ps /\ forall v, t_call g ps = Ok v -> D2 (v :: nil) /\ forall w, t_call f2 (v :: nil) = Ok w -> D1 (w :: nil).
Lemma left_built : tbuilt ss (flat s, E) gdom mf (fun _ => true) false L.
Proof.
  eapply tb_domain; [|exact (tb_compose ss s E _ Dg mf dep _ g Pss NK Dep (o_comp s E D1 D2 f1 f2 NK O1 O2) Bg)].
  intros ps [d dv]. split; [|exact d]. intros v Ev. destruct (dv v Ev) as [d2 d1]. split; [exact d1|exact d2].
Qed.
Lemma fl0 : flat (flat s, @nil nat) = flat s.
Proof. unfold flat at 1. apply app_nil_r. Qed.
Lemma mid_call ps v : t_call g ps = Ok v -> t_call (t_compose f2 (g :: nil)) ps = t_call f2 (v :: nil).
Proof. intros Ev. cbn [t_compose t_call]. unfold tcompose_call. cbn [rmapM]. now rewrite Ev. Qed.
Lemma right_built : tbuilt ss (flat s, E) gdom mf (fun _ => true) false RR.
Proof.
  pose proof (tb_compose ss (flat s, []) E D1 _ mf (fun _ => true) f1 _ Pss ltac:(rewrite fl0; exact NK) (fun _ _ => eq_refl) O1 (tb_compose ss s [] D2 Dg mf dep f2 g Pss NK Dep O2 Bg)) as T.
  rewrite fl0 in T. eapply tb_domain; [|exact T]. intros ps [d dv]. split; [|split; [|exact d]].
  - intros w Ew. cbn [t_compose t_call] in Ew. unfold tcompose_call in Ew. cbn [rmapM] in Ew. destruct (t_call g ps) as [v|] eqn:Ev; [|discriminate Ew]. cbn [rbind] in Ew. exact (proj2 (dv v eq_refl) w Ew).
  - intros v Ev. exact (proj1 (dv v Ev)).
Qed.
Lemma comp1 f h ps : t_call (t_compose f (h :: nil)) ps = (let! v := t_call h ps in t_call f (v :: nil)).
Proof. cbn [t_compose t_call]. unfold tcompose_call. cbn [rmapM]. destruct (t_call h ps); reflexivity. Qed.
Theorem same_value ps : t_call L ps = t_call RR ps.
Proof. rewrite !comp1. destruct (t_call g ps) as [v|e]; cbn [rbind]; [|reflexivity]. now rewrite comp1. Qed.
(** the dense functions *)
Lemma both_dense : exists sl sr, wellformed ss (flat s, E) sl /\ refines ss (flat s, E) (Dd ss gdom) mf (fun _ => true) false L sl /\
  refines ss (flat s, E) (Dd ss gdom) mf (fun _ => true) false RR sr /\
  forall qs, has_sts qs ss -> forall i, (i < length ss)%nat ->
    (forall x n d, get (val (f_grad sl qs i)) x [] n d = get (val (f_grad sr qs i)) x [] n d) /\
    (forall j x y n d, (j <= i)%nat -> get (val (f_hess sl qs i j)) x y n d = get (val (f_hess sr qs i j)) x y n d).
Proof.
  destruct (outer_dense _ _ _ _ O1) as (sf1 & F1 & C1). destruct (outer_dense _ _ _ _ O2) as (sf2 & F2 & C2). destruct (tbuilt_dense _ _ _ _ _ _ _ Bg) as (sg & Cg & _ & Rg).
  pose proof (c_wf _ _ _ _ C1) as W1. pose proof (c_wf _ _ _ _ C2) as W2. pose proof (c_wf _ _ _ _ Cg) as Wg.
  pose proof W1 as W1'. rewrite fl0 in W1. pose proof fl0 as FK. set (K := flat s) in *.
  assert (HM : forall ps qs, prms ss ps qs -> Dg ps -> exists v, t_call g ps = Ok (PT v) /\ prms (s :: nil) (PT v :: nil) (val (f_call sg qs) :: nil)).
  { intros ps qs Pp d. destruct (rf_call _ _ _ _ _ _ _ _ Rg ps qs Pp ltac:(exists ps; auto)) as (v & Ev & [[A _]|(t & -> & Pv)]); [discriminate A|]. exists t. split; [exact Ev|].
    split; [reflexivity|]. split; [constructor; [exact (FuncAffine.call_st Wg qs (proj1 (proj2 Pp)))|constructor]|]. intros [|i] Hi; [exact Pv|cbn in Hi; lia]. }
  assert (HD : forall qs, Dd ss gdom qs -> Dd ss Dg qs /\ Dd (s :: nil) D2 (val (f_call sg qs) :: nil) /\ Dd ((K, []) :: nil) D1 (val (f_call sf2 (val (f_call sg qs) :: nil)) :: nil)).
  { intros qs (ps & Pp & d & dv). destruct (HM ps qs Pp d) as (v & Ev & Pv). destruct (dv _ Ev) as [d2 d1]. assert (Q2 : Dd (s :: nil) D2 (val (f_call sg qs) :: nil)) by (exists (PT v :: nil); auto).
    split; [exists ps; auto|]. split; [exact Q2|]. destruct (df_call _ _ _ _ _ F2 _ _ Pv Q2) as (w & Ew & Pw). exists (PT w :: nil). split; [|now apply d1]. eapply nest_arg; eauto. }
  exists (s_compose (s_compose sf1 (sf2 :: nil)) (sg :: nil)), (s_compose sf1 (s_compose sf2 (sg :: nil) :: nil)).
  pose proof (W12 s (K, []) (K, E) sf1 sf2 W1 W2) as W12. pose proof (W2g ss s (K, []) sf2 sg W2 Wg) as W2g.
  split; [exact (FuncCompose.compose_wf ss (s :: nil) (K, E) _ (sg :: nil) W12 (one Wg))|].
  split; [|split].
  - eapply refines_domain; [|apply (compose_refines ss s E (fun qs => Dd ((K, []) :: nil) D1 (val (f_call sf2 qs) :: nil) /\ Dd (s :: nil) D2 qs) (Dd ss Dg) mf dep _ g _ sg Pss NK W12 Wg)].
    + intros qs d. destruct (HD qs d) as (dg & d2 & d1). auto.
    + exact (nest_dform s E (Dd ((K, []) :: nil) D1) (Dd (s :: nil) D2) f1 f2 sf1 sf2 NK W1' W2 F1 F2).
    + exact Rg.
    + exact Dep.
  - pose proof (compose_refines ss s [] (Dd (s :: nil) D2) (Dd ss Dg) mf dep f2 g sf2 sg Pss NK W2 Wg F2 Rg Dep) as R2.
    pose proof (compose_refines ss (K, []) E (Dd ((K, []) :: nil) D1) _ mf (fun _ => true) f1 _ sf1 _ Pss ltac:(rewrite FK; exact NK) W1' W2g F1 R2 (fun _ _ => eq_refl)) as R1.
    rewrite FK in R1. eapply refines_domain; [|exact R1]. intros qs d. destruct (HD qs d) as (dg & d2 & d1). split; [|split; auto].
    destruct d as (ps & Pp & _). rewrite (call_of ss s (K, []) sf2 sg W2 Wg qs (proj1 (proj2 Pp))). exact d1.
  - intros qs Hq i Hi. split.
    + intros x n d. exact (dense_grad_assoc ss s (K, []) (K, E) sf1 sf2 sg W1 W2 Wg qs Hq i x n d Hi).
    + intros j x y n d Hj. exact (dense_hess_assoc ss s (K, []) (K, E) sf1 sf2 sg W1 W2 Wg qs Hq i j x y n d Hi Hj).
Qed.
Theorem same_grad ps i x n d : are_pars ss ps -> gdom ps -> (i < length ss)%nat -> In x (indices (flat (nth i ss ([], [])))) -> In n (indices (flat s)) -> In d (indices E) ->
  at_res (t_grad L ps i) x [] n d = at_res (t_grad RR ps i) x [] n d.
Proof.
  intros A d0 Hi Hx Hn Hd. destruct both_dense as (sl & sr & _ & RL & RR' & H). pose proof (are_pars_prms _ _ A) as Pp. pose proof (are_pars_Dd _ _ _ A d0) as Dp.
  destruct (rf_grad _ _ _ _ _ _ _ _ RL ps _ i Pp Dp Hi) as (v & Ev & V). destruct (rf_grad _ _ _ _ _ _ _ _ RR' ps _ i Pp Dp Hi) as (u & Eu & U).
  unfold at_res. rewrite Ev, Eu. cbn [res0]. rewrite (rep_get _ _ _ v _ x [] n d V), (rep_get _ _ _ u _ x [] n d U); [|repeat split; auto; now left|repeat split; auto; now left].
  apply (proj1 (H _ (proj1 (proj2 Pp)) i Hi)).
Qed.
Theorem same_hess ps i j x y n d : are_pars ss ps -> gdom ps -> (i < length ss)%nat -> (j <= i)%nat -> In x (indices (flat (nth i ss ([], [])))) -> In y (indices (flat (nth j ss ([], [])))) -> In n (indices (flat s)) -> In d (indices E) ->
  at_res (t_hess L ps i j) x y n d = at_res (t_hess RR ps i j) x y n d.
Proof.
  intros A d0 Hi Hj Hx Hy Hn Hd. destruct both_dense as (sl & sr & _ & RL & RR' & H). pose proof (are_pars_prms _ _ A) as Pp. pose proof (are_pars_Dd _ _ _ A d0) as Dp.
  destruct (rf_hess _ _ _ _ _ _ _ _ RL ps _ i j Pp Dp Hi Hj) as (v & Ev & V). destruct (rf_hess _ _ _ _ _ _ _ _ RR' ps _ i j Pp Dp Hi Hj) as (u & Eu & U).
  unfold at_res. rewrite Ev, Eu. cbn [res0]. rewrite (rep_get _ _ _ v _ x y n d V), (rep_get _ _ _ u _ x y n d U); [|repeat split; auto|repeat split; auto].
  exact (proj2 (H _ (proj1 (proj2 Pp)) i Hi) j x y n d Hj).
Qed.
End Tensors.
