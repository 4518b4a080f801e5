(** Product on Tensors: value, gradient and Hessian have the entries of the dense
    Product of FuncProduct.v. *)
From Verif Require Import Prelude DenseModel AnalyticSpec DenseProofs NDArray NDProofs TensorModel TensorSpec TensorSpecOps TensorLemmas TensorBasic TensorSum TensorSumMain TensorBin TensorArith TensorShape TensorExpand TensorGeneric TensorGSum TensorGUni TensorDotCore TensorDot TensorUfunc TensorUfuncP FuncModel FuncSpec FTModel FTRep FTRep2 FTRep3 FTVal FTRefine LTModel LTPlain LTProd LTOuter FTSum ETModel ETRefine PTModel PTMix.
From Verif Require FuncCompose FuncLemmas FuncAffine FuncSum FuncProduct.
From Coquelicot Require Import Coquelicot.
From Coq Require Import Reals Lra.
Import List ListNotations.
Open Scope R_scope.
Notation Rprod := FuncProduct.Rprod.

(** a product of values: the number 1, or a Tensor without parameter axes *)
Definition pmc (N D : list nat) (v : pval) : Prop := v = PNum 1 \/ mc (SH [] [] N D) v.
Definition pget (v : pval) (n d : idx) : R := get (vden v) [] [] n d.
Lemma spos_nil N D X Y : spos (SH X Y N D) -> spos (SH [] [] N D).
Proof. intros (_ & _ & P3 & P4). split; [constructor|]. split; [constructor|]. split; assumption. Qed.
Lemma pmul X Y N D u v : spos (SH X Y N D) -> pmc N D u -> mc (SH X Y N D) v ->
  exists w, py OMul u v = Ok w /\ mc (SH X Y N D) w /\ tabeq (SH X Y N D) (get (vden w)) (fun x y n d => pget u n d * get (vden v) x y n d).
Proof.
  intros PS [->|Hu] Hv; [|now apply mc_plmul]. exists v. split; [now apply (mc_num1 (SH X Y N D))|]. split; [exact Hv|].
  intros x y n d _. unfold pget. rewrite get_num. ring.
Qed.
Lemma reduce_ok N D : spos (SH [] [] N D) -> forall r v, Forall (mc (SH [] [] N D)) r -> mc (SH [] [] N D) v ->
  exists w, ofold (py OMul) r v = Ok w /\ mc (SH [] [] N D) w /\ forall n d, In n (indices N) -> In d (indices D) -> pget w n d = pget v n d * Rprod (fun u => pget u n d) r.
Proof.
  intros PS. induction r as [|u r IH]; intros v Fr Hv; cbn [ofold].
  - exists v. split; [reflexivity|]. split; [exact Hv|]. intros. unfold Rprod. cbn. ring.
  - inversion Fr as [|? ? Hu Fr']; subst. destruct (pmul [] [] N D v u PS (or_intror Hv) Hu) as (w1 & E1 & M1 & T1). rewrite E1. cbn [rbind].
    destruct (IH w1 Fr' M1) as (w & E & M & T). exists w. split; [exact E|]. split; [exact M|]. intros n d Hn Hd. rewrite T by assumption. rewrite FuncProduct.Rprod_cons.
    unfold pget at 1. rewrite T1; [unfold pget; ring|]. repeat split; auto; now left.
Qed.
Lemma preduce_ok N D l : spos (SH [] [] N D) -> l <> [] -> Forall (mc (SH [] [] N D)) l ->
  exists w, preduce l = Ok w /\ mc (SH [] [] N D) w /\ forall n d, In n (indices N) -> In d (indices D) -> pget w n d = Rprod (fun u => pget u n d) l.
Proof.
  intros PS Ne F. destruct l as [|v r]; [congruence|]. inversion F as [|? ? Hv Fr]; subst. cbn [preduce]. destruct (reduce_ok N D PS r v Fr Hv) as (w & E & M & T).
  exists w. split; [exact E|]. split; [exact M|]. intros n d Hn Hd. rewrite T by assumption. now rewrite FuncProduct.Rprod_cons.
Qed.
Lemma p_prod_ok N D vs e : spos (SH [] [] N D) -> Forall (mc (SH [] [] N D)) vs ->
  exists w, p_prod vs e = Ok w /\ pmc N D w /\ forall n d, In n (indices N) -> In d (indices D) ->
    pget w n d = Rprod (fun k => pget (nth k vs (PNum 0)) n d) (keep (length vs) e).
Proof.
  intros PS F. unfold p_prod. set (l := map _ _). assert (Fl : Forall (mc (SH [] [] N D)) l).
  { apply Forall_map, Forall_forall. intros k Hk. apply FuncProduct.keep_lt in Hk. rewrite Forall_forall in F. apply F, nth_In. exact Hk. }
  assert (El : forall n d, Rprod (fun u => pget u n d) l = Rprod (fun k => pget (nth k vs (PNum 0)) n d) (keep (length vs) e)) by (intros; apply FuncProduct.Rprod_map).
  destruct l as [|v r] eqn:E.
  - cbn [preduce]. exists (PNum 1). split; [reflexivity|]. split; [now left|]. intros n d _ _. rewrite <- El. unfold pget. rewrite get_num. reflexivity.
  - destruct (preduce_ok N D (v :: r) PS ltac:(discriminate) Fl) as (w & Ew & M & T). rewrite Ew. exists w. split; [reflexivity|]. split; [now right|]. intros n d Hn Hd. rewrite T by assumption. apply El.
Qed.

Lemma Rsum_map_nth {A} (f : A -> R) l (d : A) : Rsum (fun k => f (nth k l d)) (seq 0 (length l)) = Rsum f l.
Proof.
  induction l as [|a l IH]; [reflexivity|]. cbn [length seq]. rewrite Rsum_cons. cbn [nth]. rewrite <- seq_shift. unfold Rsum at 1. rewrite map_map. rewrite Rsum_cons. f_equal. exact IH.
Qed.
Section ex.
Context {ex : exdims}.
Lemma rep_mc nz Q S v F : nonscalar S -> rep nz Q S v F -> mc S v /\ tabeq S (get (vden v)) F.
Proof.
  intros NS [(_ & Z & E)|(P & E)].
  - pose proof Z as (t & -> & _). split; [now right|]. intros x y n d Hi. rewrite (zval_get _ x y n d Z). symmetry. now apply E.
  - split; [|exact E]. destruct v as [c|a|t|g]; [destruct P|destruct P| |].
    + left. apply xfits_fits; [apply P|exact NS].
    + destruct P as (Ne & F0 & _). split; [exact Ne|]. eapply Forall_impl; [|exact F0]. intros e (t & -> & X & _). exists t. split; [reflexivity|]. left. now apply xfits_fits.
Qed.
Lemma vrel_mc col (o J : pst) v q : ax_le (fst o) (fst J) -> ax_le (snd o) (snd J) -> flat J <> [] -> posl (flat o) -> has_st q o -> vrel col o v q ->
  mc (SH [] [] (fst J) (snd J)) v /\ forall n d, In n (indices (fst J)) -> In d (indices (snd J)) -> pget v n d = get q [] [] n d.
Proof.
  intros A1 A2 NJ P Hq [(_ & U & Z & E)|(t & -> & Pv)].
  - split; [pose proof Z as (t & -> & _); now right|]. intros n d Hn Hd. unfold pget. rewrite (zval_get _ _ _ n d Z). symmetry. apply (unit_get q o n d Hq P U E).
    + apply FuncLemmas.ax_le_length in A1. rewrite A1. apply In_indices in Hn. now apply Forall2_length' in Hn.
    + apply FuncLemmas.ax_le_length in A2. rewrite A2. apply In_indices in Hd. now apply Forall2_length' in Hd.
  - split.
    + destruct Pv as (W & X & Y & N & D & _). left. assert (Pt : plt t) by (split; [exact W|split; assumption]).
      apply (plt_fits (SH [] [] (fst J) (snd J)) t 0); [exact NJ|exact Pt|]. cbn [lv SN SD fst snd]. rewrite N, D. split; now apply ax_le1.
    + intros n d Hn Hd. unfold pget. cbn [vden]. apply (pv_get o t q n d Pv Hq); eapply FuncSum.in_axle; eassumption.
Qed.

Section ProdR.
Context (ss : list pst) (D : list dt -> Prop) (ats : list atom).
Notation J := (join (map a_o ats)).
Notation m := (length ats).
Notation sX i := (flat (nth i ss ([], []))).
Notation NJ := (fst J).
Notation DJ := (snd J).
Hypothesis Pss : Forall (fun s => posl (flat s)) ss.
Hypothesis Ne : ats <> [].
Hypothesis Bc : broadcastable (map a_o ats).
Hypothesis HJ : flat J <> [].
Hypothesis Dr : Forall (fun a => DR (snd (a_o a)) (snd J)) ats.
Hypothesis Cr : Forall (fun a => correct ss (a_o a) D (a_s a)) ats.
Hypothesis Rf : Forall (fun a => refines ss (a_o a) D (a_mf a) (a_dep a) (a_col a) (a_t a) (a_s a)) ats.
Hypothesis Mf : Forall (fun a => forall f, In f (a_mf a) -> nth f (fst (a_o a)) 1%nat = nth f (fst J) 1%nat) ats.
Notation T := (map a_t ats).
Notation F := (map a_s ats).
Lemma pin a : In a ats -> ax_le (fst (a_o a)) NJ /\ ax_le (snd (a_o a)) DJ /\ correct ss (a_o a) D (a_s a) /\
  refines ss (a_o a) D (a_mf a) (a_dep a) (a_col a) (a_t a) (a_s a) /\ (forall f, In f (a_mf a) -> nth f (fst (a_o a)) 1%nat = nth f NJ 1%nat) /\ DR (snd (a_o a)) DJ.
Proof.
  intros H. assert (B : ax_le (fst (a_o a)) NJ /\ ax_le (snd (a_o a)) DJ) by (exact (proj1 (Forall_forall _ _) Bc (a_o a) (in_map a_o ats a H))).
  refine (conj (proj1 B) (conj (proj2 B) (conj _ (conj _ (conj _ _))))).
  - exact (proj1 (Forall_forall _ _) Cr a H). - exact (proj1 (Forall_forall _ _) Rf a H). - exact (proj1 (Forall_forall _ _) Mf a H). - exact (proj1 (Forall_forall _ _) Dr a H).
Qed.
Lemma pposJ : posl NJ /\ posl DJ.
Proof.
  assert (P : posl (flat J)).
  { rewrite <- (map_id ats). apply Forall_app. split.
    - apply Forall_forall. intros s Hs. destruct ats as [|a l] eqn:E; [congruence|]. rewrite <- E in *. rewrite map_id in Hs. assert (Ha : In a ats) by (rewrite E; now left).
      destruct (pin a Ha) as (A1 & _ & _ & R & _). pose proof (rf_pos _ _ _ _ _ _ _ _ R) as P. apply Forall_app in P as [P _].
      clear - A1 P Hs. unfold posl in P. induction A1 as [|s0 s1 x y H A IH]; [destruct Hs|]. inversion P; subst. destruct Hs as [<-|Hs]; [destruct H as [<-|[_ H]]; lia|auto].
    - apply Forall_forall. intros s Hs. destruct ats as [|a l] eqn:E; [congruence|]. rewrite <- E in *. rewrite map_id in Hs. assert (Ha : In a ats) by (rewrite E; now left).
      destruct (pin a Ha) as (_ & A1 & _ & R & _). pose proof (rf_pos _ _ _ _ _ _ _ _ R) as P. apply Forall_app in P as [_ P].
      clear - A1 P Hs. unfold posl in P. induction A1 as [|s0 s1 x y H A IH]; [destruct Hs|]. inversion P; subst. destruct Hs as [<-|Hs]; [destruct H as [<-|[_ H]]; lia|auto]. }
  now apply posl_app in P.
Qed.
Lemma posXi i : (i < length ss)%nat -> posl (sX i).
Proof. intros Hi. exact (proj1 (Forall_forall _ _) Pss _ (nth_In _ _ Hi)). Qed.
Lemma sposG i : (i < length ss)%nat -> spos (SH (sX i) [] NJ DJ).
Proof. intros Hi. destruct pposJ. split; [now apply posXi|]. split; [constructor|]. split; assumption. Qed.
Lemma sposH i j : (i < length ss)%nat -> (j < length ss)%nat -> spos (SH (sX i) (sX j) NJ DJ).
Proof. intros Hi Hj. destruct pposJ. split; [now apply posXi|]. split; [now apply posXi|]. split; assumption. Qed.
Lemma spos0 : spos (SH [] [] NJ DJ).
Proof. destruct pposJ. split; [constructor|]. split; [constructor|]. split; assumption. Qed.
Lemma Wos : Forall2 (fun a o => wellformed ss o a) F (map a_o ats).
Proof. clear - Cr. induction ats as [|a l IH]; [constructor|]. inversion Cr as [|? ? C0 C1]; subst. cbn [map]. constructor; [exact (c_wf _ _ _ _ C0)|auto]. Qed.

Section At.
Context (ps : list pval) (qs : list dt) (Pp : prms ss ps qs) (Dq : D qs).
Notation Hs := (proj1 (proj2 Pp)).
Definition dflt : atom := mkAtom 0 (mkTF (fun _ => Raise TypeError) (fun _ _ => Raise TypeError) (fun _ _ _ => Raise TypeError) false false) FuncCompose.fnull ([], []) [] (fun _ => false) false.
Notation at_ k := (nth k ats dflt).
Lemma nthF k : nth k F FuncCompose.fnull = a_s (at_ k).
Proof. exact (map_nth a_s ats dflt k). Qed.
Lemma nthT k : (k < m)%nat -> rnth T k = Ok (a_t (at_ k)).
Proof. intros H. rewrite (rnth_nth _ _ (a_t dflt)) by now rewrite map_length. f_equal. apply map_nth. Qed.
Lemma lenF : length F = m. Proof. apply map_length. Qed.
Notation Vk := (fun n d k => FuncProduct.V F qs n d k).
Notation Gk := (fun i x n d k => FuncProduct.Gr F qs i x n d k).
Notation Hk := (fun i j x y n d k => FuncProduct.Hs F qs i j x y n d k).
Lemma vals_ok : exists vs, p_vals T ps = Ok vs /\ length vs = m /\ Forall (mc (SH [] [] NJ DJ)) vs /\
  forall k n d, (k < m)%nat -> In n (indices NJ) -> In d (indices DJ) -> pget (nth k vs (PNum 0)) n d = Vk n d k.
Proof.
  unfold p_vals. rewrite rmapM_map.
  destruct (rmapM_list (fun a => t_call (a_t a) ps) dflt (PNum 0) ats) as (vs & E & L & N).
  { intros k Hk. destruct (pin _ (nth_In ats dflt Hk)) as (_ & _ & _ & R & _). destruct (rf_call _ _ _ _ _ _ _ _ R ps qs Pp Dq) as (v & Ev & _). now exists v. }
  exists vs. split; [exact E|]. split; [exact L|].
  assert (K : forall k, (k < m)%nat -> mc (SH [] [] NJ DJ) (nth k vs (PNum 0)) /\ forall n d, In n (indices NJ) -> In d (indices DJ) -> pget (nth k vs (PNum 0)) n d = Vk n d k).
  { intros k Hk. destruct (pin _ (nth_In ats dflt Hk)) as (A1 & A2 & C & R & _). destruct (rf_call _ _ _ _ _ _ _ _ R ps qs Pp Dq) as (v & Ev & Rv).
    specialize (N k Hk). cbn beta in N. rewrite Ev in N. injection N as <-. unfold FuncProduct.V. rewrite nthF.
    apply (vrel_mc (a_col (at_ k)) (a_o (at_ k)) J v); auto; [exact (rf_pos _ _ _ _ _ _ _ _ R)|]. exact (FuncAffine.call_st (c_wf _ _ _ _ C) qs Hs). }
  split; [|intros k n d Hk; now apply K]. apply Forall_forall. intros v Hv. apply (In_nth _ _ (PNum 0)) in Hv as (k & Hk & <-). rewrite L in Hk. now apply K.
Qed.
Lemma grads_ok i k : (i < length ss)%nat -> (k < m)%nat -> exists g, t_grad (a_t (at_ k)) ps i = Ok g /\ mc (SH (sX i) [] NJ DJ) g /\
  forall x n d, In x (indices (sX i)) -> In n (indices NJ) -> In d (indices DJ) -> get (vden g) x [] n d = Gk i x n d k.
Proof.
  intros Hi Hk. destruct (pin _ (nth_In ats dflt Hk)) as (A1 & A2 & C & R & M & Dk). destruct (rf_grad _ _ _ _ _ _ _ _ R ps qs i Pp Dq Hi) as (g & Eg & Rg). exists g. split; [exact Eg|].
  pose proof (c_wf _ _ _ _ C) as Wa. unfold gsh in Rg.
  assert (Gw : rep (a_dep (at_ k) i) (Qm (a_mf (at_ k))) (SH (sX i) [] NJ DJ) g (get (val (f_grad (a_s (at_ k)) qs i)))).
  { eapply (rep_grow _ _ (sX i) [] (a_o (at_ k)) J g _ _ A1 A2 Dk HJ M); [|exact Rg]. intros x y n d. apply (FuncSum.tst_clamp_nd _ _ _ _ x y n d (FuncAffine.grad_tst Wa qs i Hs Hi)). }
  destruct (rep_mc _ _ _ _ _ (HJ : nonscalar (SH (sX i) [] NJ DJ)) Gw) as [Mg Tg].
  split; [exact Mg|]. intros x n d Hx Hn Hd. rewrite Tg by (repeat split; auto; now left). unfold FuncProduct.Gr. now rewrite nthF.
Qed.
Lemma hesses_ok i j k : (i < length ss)%nat -> (j <= i)%nat -> (k < m)%nat -> exists h, t_hess (a_t (at_ k)) ps i j = Ok h /\ mc (SH (sX i) (sX j) NJ DJ) h /\
  forall x y n d, at_shape (SH (sX i) (sX j) NJ DJ) x y n d -> get (vden h) x y n d = Hk i j x y n d k.
Proof.
  intros Hi Hj Hk. destruct (pin _ (nth_In ats dflt Hk)) as (A1 & A2 & C & R & M & Dk). destruct (rf_hess _ _ _ _ _ _ _ _ R ps qs i j Pp Dq Hi Hj) as (g & Eg & Rg). exists g. split; [exact Eg|].
  pose proof (c_wf _ _ _ _ C) as Wa. unfold hsh in Rg.
  assert (Gw : rep (false) (Qm (a_mf (at_ k))) (SH (sX i) (sX j) NJ DJ) g (get (val (f_hess (a_s (at_ k)) qs i j)))).
  { eapply (rep_grow _ _ (sX i) (sX j) (a_o (at_ k)) J g _ _ A1 A2 Dk HJ M); [|exact Rg]. intros x y n d. apply (FuncSum.tst_clamp_nd _ _ _ _ x y n d (FuncAffine.hess_tst Wa qs i j Hs Hi Hj)). }
  destruct (rep_mc _ _ _ _ _ (HJ : nonscalar (SH (sX i) (sX j) NJ DJ)) Gw) as [Mg Tg].
  split; [exact Mg|]. intros x y n d Hx. rewrite Tg by exact Hx. unfold FuncProduct.Hs, hess_at. rewrite nthF. now rewrite (proj2 (Nat.leb_le j i) Hj).
Qed.
Lemma prods_ok vs e : length vs = m -> Forall (mc (SH [] [] NJ DJ)) vs ->
  (forall k n d, (k < m)%nat -> In n (indices NJ) -> In d (indices DJ) -> pget (nth k vs (PNum 0)) n d = Vk n d k) ->
  exists w, p_prod vs e = Ok w /\ pmc NJ DJ w /\ forall n d, In n (indices NJ) -> In d (indices DJ) -> pget w n d = Rprod (Vk n d) (keep m e).
Proof.
  intros L Fv Vv. destruct (p_prod_ok NJ DJ vs e spos0 Fv) as (w & E & M & K). exists w. split; [exact E|]. split; [exact M|]. intros n d Hn Hd. rewrite K by assumption. rewrite L.
  apply FuncProduct.Rprod_ext. intros k Hk. apply FuncProduct.keep_lt in Hk. now apply Vv.
Qed.

Theorem product_call_mc : exists v, t_call (t_product T) ps = Ok v /\ mc (SH [] [] NJ DJ) v /\
  forall n d, In n (indices NJ) -> In d (indices DJ) -> pget v n d = Rprod (Vk n d) (seq 0 m).
Proof.
  destruct vals_ok as (vs & E & L & Fv & Vv). cbn [t_product t_call]. rewrite E. cbn [rbind].
  destruct (preduce_ok NJ DJ vs spos0) as (w & Ew & M & K); [destruct vs; [destruct ats; [congruence|discriminate]|discriminate]|exact Fv|].
  exists w. split; [exact Ew|]. split; [exact M|]. intros n d Hn Hd. rewrite K by assumption.
  transitivity (Rprod (fun k => pget (nth k vs (PNum 0)) n d) (seq 0 m)).
  - rewrite <- FuncProduct.Rprod_map with (h := fun k => nth k vs (PNum 0)) (f := fun u => pget u n d). f_equal.
    symmetry. rewrite <- L. apply nth_ext with (d := PNum 0) (d' := PNum 0); [now rewrite map_length, seq_length|]. intros k Hk. rewrite map_length, seq_length in Hk.
    rewrite nth_indep with (d' := (fun k => nth k vs (PNum 0)) 0%nat) by now rewrite map_length, seq_length. rewrite (map_nth (fun k => nth k vs (PNum 0))). now rewrite seq_nth by exact Hk.
  - apply FuncProduct.Rprod_ext. intros k Hk. apply in_seq in Hk. apply Vv; auto; lia.
Qed.
Theorem product_grad_mc i : (i < length ss)%nat -> exists v, t_grad (t_product T) ps i = Ok v /\ mc (SH (sX i) [] NJ DJ) v /\
  forall x n d, In x (indices (sX i)) -> In n (indices NJ) -> In d (indices DJ) -> get (vden v) x [] n d = FuncProduct.PG F qs i x n d.
Proof.
  intros Hi. destruct vals_ok as (vs & E & L & Fv & Vv). cbn [t_product t_grad]. rewrite E, map_length. cbn [rbind].
  destruct (rmapM_seq (p_gterm vs T ps i) (fun k v => mc (SH (sX i) [] NJ DJ) v /\ forall x n d, In x (indices (sX i)) -> In n (indices NJ) -> In d (indices DJ) ->
    get (vden v) x [] n d = Rprod (Vk n d) (keep m (k :: nil)) * Gk i x n d k) (PNum 0) m) as (ts & Et & Lt & Kt).
  { intros k Hk. unfold p_gterm. destruct (prods_ok vs (k :: nil) L Fv Vv) as (p & Ep & Mp & Kp). rewrite Ep. cbn [rbind]. rewrite (nthT k Hk). cbn [rbind].
    destruct (grads_ok i k Hi Hk) as (g & Eg & Mg & Kg). rewrite Eg. cbn [rbind]. destruct (pmul (sX i) [] NJ DJ p g (sposG i Hi) Mp Mg) as (w & Ew & Mw & Kw). exists w. split; [exact Ew|].
    split; [exact Mw|]. intros x n d Hx Hn Hd. rewrite Kw by (repeat split; auto; now left). now rewrite Kp, Kg by assumption. }
  rewrite Et. cbn [rbind]. destruct (nmc_sum (SH (sX i) [] NJ DJ) ts (sposG i Hi)) as (w & Ew & _ & Mw & Kw).
  { apply Forall_forall. intros v Hv. apply (In_nth _ _ (PNum 0)) in Hv as (k & Hk & <-). apply Kt. lia. }
  exists w. split; [exact Ew|]. split; [apply Mw; destruct ts; [destruct ats; [congruence|discriminate]|discriminate]|].
  intros x n d Hx Hn Hd. rewrite Kw by (repeat split; auto; now left). unfold FuncProduct.PG, FuncProduct.LG. rewrite lenF.
  transitivity (Rsum (fun k => get (vden (nth k ts (PNum 0))) x [] n d) (seq 0 m)).
  - rewrite <- Lt. symmetry. apply (Rsum_map_nth (fun v => get (vden v) x [] n d)).
  - apply Rsum_ext. intros k Hk. apply in_seq in Hk. apply Kt; auto; lia.
Qed.
Theorem product_hess_mc i j : (i < length ss)%nat -> (j <= i)%nat -> exists v, t_hess (t_product T) ps i j = Ok v /\ mc (SH (sX i) (sX j) NJ DJ) v /\
  forall x y n d, at_shape (SH (sX i) (sX j) NJ DJ) x y n d -> get (vden v) x y n d = FuncProduct.PH F qs i j x y n d.
Proof.
  intros Hi Hj. assert (Hj' : (j < length ss)%nat) by lia. destruct vals_ok as (vs & E & L & Fv & Vv). cbn [t_product t_hess]. rewrite E, map_length. cbn [rbind].
  set (S := SH (sX i) (sX j) NJ DJ). assert (PS : spos S) by now apply sposH.
  set (Ck := fun x y n d k => Rsum (fun l => Rprod (Vk n d) (keep m [k; l]) * Gk i x n d k * Gk j y n d l) (keep m (k :: nil)) + Rprod (Vk n d) (keep m (k :: nil)) * Hk i j x y n d k).
  assert (St : forall k u, (k < m)%nat -> nmc S u -> exists w, p_hstep vs T ps i j u k = Ok w /\ mc S w /\ tabeq S (get (vden w)) (fun x y n d => get (vden u) x y n d + Ck x y n d k)).
  { intros k u Hk Hu. unfold p_hstep. rewrite map_length.
    destruct (rmapM_list (p_cross vs T ps i j k) 0%nat (PNum 0) (keep m (k :: nil))) as (cs & Ec & Lc & Kc).
    { intros a Ha. assert (Hl : (nth a (keep m (k :: nil)) 0 < m)%nat) by (apply (FuncProduct.keep_lt m (k :: nil)), nth_In; exact Ha).
      set (l := nth a (keep m (k :: nil)) 0%nat) in *. unfold p_cross. destruct (prods_ok vs [k; l] L Fv Vv) as (p & Ep & Mp & Kp). rewrite Ep. cbn [rbind]. rewrite (nthT k Hk). cbn [rbind].
      destruct (grads_ok i k Hi Hk) as (g & Eg & Mg & Kg). rewrite Eg. cbn [rbind]. destruct (pmul (sX i) [] NJ DJ p g (sposG i Hi) Mp Mg) as (w & Ew & Mw & Kw). rewrite Ew. cbn [rbind].
      rewrite (nthT l Hl). cbn [rbind]. destruct (grads_ok j l Hj' Hl) as (g' & Eg' & Mg' & Kg'). rewrite Eg'. cbn [rbind].
      destruct (mc_trans (sX j) NJ DJ g' (sposG j Hj') Mg') as (tr & Etr & Mtr & Ktr). rewrite Etr. cbn [rbind]. destruct (mc_outer (sX i) (sX j) NJ DJ w tr PS Mw Mtr) as (z & Ez & _). now exists z. }
    assert (Cl : forall a, (a < length (keep m (k :: nil)))%nat -> mc S (nth a cs (PNum 0)) /\ forall x y n d, at_shape S x y n d -> get (vden (nth a cs (PNum 0))) x y n d =
      (fun l => Rprod (Vk n d) (keep m [k; l]) * Gk i x n d k * Gk j y n d l) (nth a (keep m (k :: nil)) 0%nat)).
    { intros a Ha. assert (Hl : (nth a (keep m (k :: nil)) 0 < m)%nat) by (apply (FuncProduct.keep_lt m (k :: nil)), nth_In; exact Ha). specialize (Kc a Ha).
      set (l := nth a (keep m (k :: nil)) 0%nat) in *. unfold p_cross in Kc. destruct (prods_ok vs [k; l] L Fv Vv) as (p & Ep & Mp & Kp). rewrite Ep in Kc. cbn [rbind] in Kc. rewrite (nthT k Hk) in Kc. cbn [rbind] in Kc.
      destruct (grads_ok i k Hi Hk) as (g & Eg & Mg & Kg). rewrite Eg in Kc. cbn [rbind] in Kc. destruct (pmul (sX i) [] NJ DJ p g (sposG i Hi) Mp Mg) as (w & Ew & Mw & Kw). rewrite Ew in Kc. cbn [rbind] in Kc.
      rewrite (nthT l Hl) in Kc. cbn [rbind] in Kc. destruct (grads_ok j l Hj' Hl) as (g' & Eg' & Mg' & Kg'). rewrite Eg' in Kc. cbn [rbind] in Kc.
      destruct (mc_trans (sX j) NJ DJ g' (sposG j Hj') Mg') as (tr & Etr & Mtr & Ktr). rewrite Etr in Kc. cbn [rbind] in Kc. destruct (mc_outer (sX i) (sX j) NJ DJ w tr PS Mw Mtr) as (z & Ez & Mz & Kz). rewrite Ez in Kc. injection Kc as <-.
      split; [exact Mz|]. intros x y n d Hi0. pose proof Hi0 as (H1 & H2 & H3 & H4). cbn [S SX SY SN SD] in H1, H2, H3, H4. rewrite Kz by exact Hi0. rewrite Kw by (repeat split; auto; now left). rewrite Ktr by (repeat split; auto; now left).
      now rewrite Kp, Kg, Kg' by assumption. }
    rewrite Ec. cbn [rbind]. destruct (nmc_sum S cs PS) as (s & Es & Ms & _ & Ks).
    { apply Forall_forall. intros v Hv. apply (In_nth _ _ (PNum 0)) in Hv as (a & Ha & <-). apply Cl. lia. }
    rewrite Es. cbn [rbind]. destruct (nmc_add S u s PS Hu Ms) as (u1 & E1 & M1 & _ & K1). rewrite E1. cbn [rbind].
    unfold p_hterm. destruct (prods_ok vs (k :: nil) L Fv Vv) as (p & Ep & Mp & Kp). rewrite Ep. cbn [rbind]. rewrite (nthT k Hk). cbn [rbind].
    destruct (hesses_ok i j k Hi Hj Hk) as (h & Eh & Mh & Kh). rewrite Eh. cbn [rbind]. destruct (pmul (sX i) (sX j) NJ DJ p h PS Mp Mh) as (z & Ez & Mz & Kz). rewrite Ez. cbn [rbind].
    destruct (nmc_add S u1 z PS M1 (or_intror Mz)) as (w & Ew & _ & Mw & Kw). exists w. split; [exact Ew|]. split; [apply Mw; now right|].
    intros x y n d Hi0. rewrite Kw, K1, Ks by exact Hi0. rewrite Kz by exact Hi0. rewrite Kp, Kh by (exact Hi0 || apply Hi0). unfold Ck. rewrite Rplus_assoc. f_equal. f_equal.
    rewrite <- (Rsum_map_nth (fun v => get (vden v) x y n d) cs (PNum 0)), <- (Rsum_map_nth (fun l => Rprod (Vk n d) (keep m [k; l]) * Gk i x n d k * Gk j y n d l) (keep m (k :: nil)) 0%nat).
    rewrite Lc. apply Rsum_ext. intros a Ha. apply in_seq in Ha. apply Cl; [lia|exact Hi0]. }
  assert (Lp : forall l u, (forall k, In k l -> (k < m)%nat) -> nmc S u -> exists w, ofold (p_hstep vs T ps i j) l u = Ok w /\ nmc S w /\ (l <> [] -> mc S w) /\
    tabeq S (get (vden w)) (fun x y n d => get (vden u) x y n d + Rsum (Ck x y n d) l)).
  { induction l as [|k l IH]; intros u Hl Hu; cbn [ofold].
    - exists u. split; [reflexivity|]. split; [exact Hu|]. split; [congruence|]. intros x y n d _. rewrite Rsum_nil. ring.
    - destruct (St k u (Hl k (or_introl eq_refl)) Hu) as (w1 & E1 & M1 & K1). rewrite E1. cbn [rbind].
      destruct (IH w1 (fun a Ha => Hl a (or_intror Ha)) (or_intror M1)) as (w & Ew & Nw & Mw & Kw). exists w. split; [exact Ew|]. split; [exact Nw|]. split.
      + intros _. destruct l as [|k' l']; [cbn [ofold] in Ew; injection Ew as <-; exact M1|]. apply Mw. discriminate.
      + intros x y n d Hi0. rewrite Kw, K1 by exact Hi0. rewrite Rsum_cons. ring. }
  destruct (Lp (seq 0 m) (PNum 0)) as (w & Ew & _ & Mw & Kw); [intros k Hk; apply in_seq in Hk; lia|now left|]. exists w. split; [exact Ew|]. split; [apply Mw; destruct ats; [congruence|discriminate]|].
  intros x y n d Hi0. rewrite Kw by exact Hi0. rewrite get_num. unfold FuncProduct.PH, FuncProduct.LH. rewrite lenF, Rplus_0_l. reflexivity.
Qed.
End At.
End ProdR.
End ex.
