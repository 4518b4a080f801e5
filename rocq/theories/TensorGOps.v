(** Reshaping a GenericTensor (tensor/tensor.py 284-304): transpose, drop_dim,
    expand and flip work element by element; the sum of the results is the
    operation applied to the sum. *)
From Verif Require Import Prelude DenseModel AnalyticSpec DenseProofs NDArray NDProofs TensorModel TensorSpec TensorSpecOps TensorLemmas TensorBasic TensorSum TensorSumMain TensorBin TensorArith TensorShape TensorExpand TensorMore TensorGeneric TensorGSum FTRep FTRep2 FTWrap.
From Verif Require FuncLemmas.
From Coq Require Import Reals Lra.
Import List ListNotations.
Open Scope R_scope.

(** every element of a formal sum is a tensor with property P *)
Definition elements (P : tensor -> Prop) (g : gtensor) : Prop := Forall (fun e => exists t, e = IT t /\ P t) (els g).

Definition relel (op : dt -> dt) (S S' : shape4) (P : tensor -> Prop) (e e' : item) : Prop :=
  exists t r, e = IT t /\ e' = IT r /\ fits S t /\ P t /\ fits S' r /\ dsame (den r) (op (den t)).
Lemma gmap_rel (f : tensor -> res tensor) op S S' (P : tensor -> Prop) :
  (forall t, fits S t -> P t -> exists r, f t = Ok r /\ fits S' r /\ dsame (den r) (op (den t))) ->
  forall g, gfits S g -> elements P g -> exists es', gmap f g = Ok es' /\ Forall2 (relel op S S' P) (els g) es'.
Proof.
  intros H g. unfold gfits, elements, gmap. induction (els g) as [|e es IH]; intros A B; cbn [rmapM].
  - exists []. split; [reflexivity|constructor].
  - inversion A as [|? ? (t & -> & Ft) A']; inversion B as [|? ? (t' & Et & Pt) B']; subst. injection Et as <-.
    destruct (H t Ft Pt) as (r & Er & Fr & De). cbn [on_item]. rewrite Er. cbn [rbind].
    destruct (IH A' B') as (es' & Ee & Re). rewrite Ee. cbn [rbind]. exists (IT r :: es'). split; [reflexivity|].
    constructor; [|exact Re]. exists t, r. repeat (split; [solve [auto]|]). exact De.
Qed.
Lemma rel_allfit op S S' P es es' : Forall2 (relel op S S' P) es es' -> allfit S' es'.
Proof. induction 1 as [|e e' es es' (t & r & -> & -> & _ & _ & Fr & _) _ IH]; constructor; [exists r; auto|exact IH]. Qed.
Lemma rel_allfit_l op S S' P es es' : Forall2 (relel op S S' P) es es' -> allfit S es.
Proof. induction 1 as [|e e' es es' (t & r & -> & -> & Ft & _) _ IH]; constructor; [exists t; auto|exact IH]. Qed.
Lemma rel_gsum op S S' P T es es' x y n d : Forall2 (relel op S S' P) es es' -> allfit T es' -> at_shape T x y n d ->
  gsum_at es' x y n d = Rsum (fun e => get (op (iden e)) x y n d) es.
Proof.
  intros H A Hi. unfold gsum_at. induction H as [|e e' es es' (t & r & -> & -> & _ & _ & _ & De) _ IH]; [now rewrite !Rsum_nil|].
  inversion A as [|? ? (r' & Er & Fr) A']; subst. injection Er as <-. rewrite !Rsum_cons, IH by auto. f_equal. cbn [iden].
  apply (dsame_at T); auto; [apply wf_dpos, Fr|now apply fits_dbelow].
Qed.
Lemma gre_same op S S' P g g' : spos S' -> Forall2 (relel op S S' P) (els g) (els g') ->
  shape_of (op (gden g)) = gshape (els g') ->
  (forall x y n d, at_shape (gshape (els g')) x y n d -> get (op (gden g)) x y n d = Rsum (fun e => get (op (iden e)) x y n d) (els g)) ->
  gfits S' g' /\ dsame (gden g') (op (gden g)).
Proof.
  intros PS H Sh V. pose proof (rel_allfit _ _ _ _ _ _ H) as A. split; [exact A|]. apply dsame_intro.
  - now rewrite shape_gden.
  - intros x y n d Hi. rewrite shape_gden in Hi. rewrite get_gden, (rel_gsum _ _ _ _ (gshape (els g')) _ _ _ _ _ _ H); auto; [|eapply allfit_own; eauto].
    symmetry. apply V, Hi.
Qed.
Lemma rank_of S t r op : fits S t -> wf r -> dsame (den r) op ->
  (xs op = [] -> ys op = [] -> ns op = [] -> ds op = [] -> xs (den t) = [] /\ ys (den t) = [] /\ ns (den t) = [] /\ ds (den t) = []) -> shp (tv r) <> [].
Proof.
  intros F W (E1 & E2 & E3 & E4 & _) H Z. apply (rank_groups r W) in Z as (Z1 & Z2 & Z3 & Z4).
  apply (ft_rank _ _ F). apply (rank_groups t (ft_wf _ _ F)). apply H; congruence.
Qed.

(** *** transpose *)
Lemma ftrans S t : fits S t -> transposable t -> exists r, ttranspose t = Ok r /\ fits (transS S) r /\ dsame (den r) (dtrans (den t)).
Proof.
  intros F T. pose proof (ft_wf _ _ F) as W. destruct (ttranspose_ok t W T) as (r & Er & Wr & Tr & De). exists r. split; [exact Er|]. split; [|exact De].
  pose proof De as (E1 & E2 & E3 & E4 & _). cbn [dtrans xs ys ns ds] in E1, E2, E3, E4.
  assert (M : xm r = ym t /\ ym r = xm t).
  { pose proof Er as Ei. unfold ttranspose in Ei. binv Ei. cbn [rbind] in Ei. apply Tensor_inv in Ei. tauto. }
  destruct M as [Mx My]. constructor; cbn [transS SX SY SN SD]; auto.
  - apply Tr, F.
  - apply (rank_of S t r (dtrans (den t)) F Wr De); auto. cbn [dtrans xs ys ns ds]. auto.
  - rewrite E1. apply F.
  - rewrite E2. apply F.
  - change (sN r) with (ns (den r)). rewrite E3. apply F.
  - change (sD r) with (ds (den r)). rewrite E4. apply F.
  - intros f Hf. change (sN r) with (ns (den r)). rewrite E3. apply (ft_full _ _ F). rewrite Mx, My in Hf. tauto.
Qed.
Lemma rel_sizes (pr pr' : dt -> list nat) op S S' P es es' : Forall2 (relel op S S' P) es es' ->
  (forall a b, dsame a b -> pr a = pr b) -> (forall a, pr (op a) = pr' a) -> map (fun e => pr (iden e)) es' = map (fun e => pr' (iden e)) es.
Proof.
  intros H H1 H2. induction H as [|e e' es es' (t & r & -> & -> & _ & _ & _ & De) _ IH]; [reflexivity|]. cbn [map iden]. rewrite IH, (H1 _ _ De), H2. reflexivity.
Qed.
Lemma dsame_xs a b : dsame a b -> xs a = xs b. Proof. now intros (E & _). Qed.
Lemma dsame_ys a b : dsame a b -> ys a = ys b. Proof. now intros (_ & E & _). Qed.
Lemma dsame_ns a b : dsame a b -> ns a = ns b. Proof. now intros (_ & _ & E & _). Qed.
Lemma dsame_ds a b : dsame a b -> ds a = ds b. Proof. now intros (_ & _ & _ & E & _). Qed.
Lemma gd_xs g : xs (gden g) = bmaxs (map (fun e => xs (iden e)) (els g)).
Proof. pose proof (shape_gden g) as H. unfold shape_of, gshape in H. congruence. Qed.
Lemma gd_ys g : ys (gden g) = bmaxs (map (fun e => ys (iden e)) (els g)).
Proof. pose proof (shape_gden g) as H. unfold shape_of, gshape in H. congruence. Qed.
Lemma gd_ns g : ns (gden g) = bmaxs (map (fun e => ns (iden e)) (els g)).
Proof. pose proof (shape_gden g) as H. unfold shape_of, gshape in H. congruence. Qed.
Lemma gd_ds g : ds (gden g) = bmaxs (map (fun e => ds (iden e)) (els g)).
Proof. pose proof (shape_gden g) as H. unfold shape_of, gshape in H. congruence. Qed.

Theorem gtranspose_ok S g : spos S -> gfits S g -> elements transposable g ->
  exists g', gtranspose g = Ok g' /\ gfits (transS S) g' /\ dsame (gden g') (dtrans (gden g)) /\ gx g' = gy g /\ gy g' = gx g /\ gn g' = gn g /\ gd g' = gd g.
Proof.
  intros PS F B. destruct (gmap_rel ttranspose dtrans S (transS S) transposable (ftrans S) g F B) as (es' & E & R).
  unfold gtranspose. rewrite E. cbn [rbind]. set (g' := mkG _ _ _ _ es'). exists g'. split; [reflexivity|].
  assert (PS' : spos (transS S)) by (destruct PS as (? & ? & ? & ?); repeat split; assumption).
  destruct (gre_same dtrans S (transS S) transposable g g' PS' R) as (G1 & G2); [..|now split; [|split; [|repeat split]]].
  - change (els g') with es' in *. unfold shape_of, gshape. cbn [dtrans xs ys ns ds]. rewrite gd_xs, gd_ys, gd_ns, gd_ds.
    rewrite (rel_sizes xs ys _ _ _ _ _ _ R dsame_xs (fun _ => eq_refl)), (rel_sizes ys xs _ _ _ _ _ _ R dsame_ys (fun _ => eq_refl)),
      (rel_sizes ns ns _ _ _ _ _ _ R dsame_ns (fun _ => eq_refl)), (rel_sizes ds ds _ _ _ _ _ _ R dsame_ds (fun _ => eq_refl)). reflexivity.
  - intros x y n d _. rewrite get_dtrans, get_gden. unfold gsum_at. apply Rsum_ext; intros e _. now rewrite get_dtrans.
Qed.

(** *** drop_dim *)
(** an element with k feature axes and d dim axes *)
Definition hasaxes (k d : nat) (t : tensor) : Prop := nn t = k /\ dm t = d.
Lemma fits_le1 S t : fits S t -> hasaxes (length (SN S)) (length (SD S)) t -> le1 (sN t) (SN S) /\ le1 (sD t) (SD S).
Proof.
  intros F [N D]. pose proof (wf_groups t (ft_wf _ _ F)) as G.
  split; apply below_len; try apply F; [now rewrite (g_n _ _ _ _ _ G)|now rewrite (g_d _ _ _ _ _ G)].
Qed.
Lemma fdrop S t : fits S t -> hasaxes (length (SN S)) (length (SD S)) t -> exists r, tdrop t = Ok r /\ fits (dropS S) r /\ dsame (den r) (ddrop (den t)).
Proof.
  intros F H. destruct (fits_le1 S t F H) as [LN LD]. pose proof (ft_wf _ _ F) as W. destruct (tdrop_ok t W) as (r & Er & Wr & De). exists r. split; [exact Er|]. split; [|exact De].
  pose proof De as (E1 & E2 & E3 & E4 & _). cbn [ddrop xs ys ns ds] in E1, E2, E3, E4. change (ns (den t)) with (sN t) in E3. change (ds (den t)) with (sD t) in E3.
  pose proof Er as Ei. unfold tdrop in Ei. apply Tensor_inv in Ei as (Mx & My & _ & _ & _ & Ev).
  pose proof (ft_feat _ _ F) as T. constructor; cbn [dropS SX SY SN SD]; auto.
  - destruct T as [T1 T2]. assert (L : (nn t <= nn r)%nat). { rewrite <- (g_n _ _ _ _ _ (wf_groups r Wr)). change (sN r) with (ns (den r)). rewrite E3, app_length, (g_n _ _ _ _ _ (wf_groups t W)). lia. }
    split; rewrite ?Mx, ?My; (eapply Forall_impl; [|eassumption]); intros; cbn beta in *; lia.
  - rewrite Ev. apply F.
  - rewrite E1. apply F.
  - rewrite E2. apply F.
  - change (sN r) with (ns (den r)). rewrite E3. apply le1_below. now apply le1_app.
  - change (sD r) with (ds (den r)). rewrite E4. now left.
  - intros f Hf. rewrite Mx, My in Hf. change (sN r) with (ns (den r)). rewrite E3. pose proof (ft_full _ _ F f Hf) as Ff. assert (Lf := feat_lt t f W T Hf).
    rewrite !app_nth1; auto. rewrite <- (le1_len _ _ LN). exact Lf.
Qed.
Lemma bmax_app a b A B : length a = length A -> bmax (a ++ b) (A ++ B) = bmax a A ++ bmax b B.
Proof. revert A; induction a as [|s a IH]; intros [|s' A] L; cbn [length app bmax] in *; try lia; auto. f_equal. apply IH. lia. Qed.
Lemma bmaxs_app k l1 : forall l2, Forall (fun a => length a = k) l1 -> length l1 = length l2 -> l1 <> [] ->
  bmaxs (map (fun ab => fst ab ++ snd ab) (combine l1 l2)) = bmaxs l1 ++ bmaxs l2 /\ length (bmaxs l1) = k.
Proof.
  induction l1 as [|a l1 IH]; intros [|b l2] F L N; try discriminate; [easy|]. inversion F as [|? ? Fa F']; subst. cbn [combine map fst snd bmaxs fold_right]. fold (bmaxs l1). fold (bmaxs l2).
  change (fold_right bmax [] (map (fun ab : list nat * list nat => fst ab ++ snd ab) (combine l1 l2))) with (bmaxs (map (fun ab => fst ab ++ snd ab) (combine l1 l2))).
  destruct l1 as [|a1 l1].
  - destruct l2; [|discriminate]. cbn [combine map bmaxs fold_right]. now rewrite !bmax_nil_r.
  - destruct (IH l2 F' ltac:(cbn [length] in *; lia) ltac:(discriminate)) as [E1 E2]. rewrite E1. split; [exact (bmax_app a b _ _ (eq_sym E2))|].
    change (length (bmax a (bmaxs (a1 :: l1))) = length a). rewrite bmax_length; [exact E2|now symmetry].
Qed.
Lemma bmaxs_len k l : Forall (fun a => length a = k) l -> l <> [] -> length (bmaxs l) = k.
Proof.
  induction 1 as [|a l Ha _ IH]; [easy|]. intros _. cbn [bmaxs fold_right]. fold (bmaxs l). destruct l as [|b l]; [cbn [bmaxs fold_right]; now rewrite bmax_nil_r|].
  assert (E : length (bmaxs (b :: l)) = k) by (apply IH; discriminate). rewrite bmax_length; [exact E|]. now rewrite E.
Qed.
Lemma combine_map {A B C} (f : A -> B) (g : A -> C) l : combine (map f l) (map g l) = map (fun a => (f a, g a)) l.
Proof. induction l; cbn; congruence. Qed.
Theorem gdrop_ok S g : spos S -> gfits S g -> elements (hasaxes (length (SN S)) (length (SD S))) g ->
  exists g', gdrop g = Ok g' /\ gfits (dropS S) g' /\ dsame (gden g') (ddrop (gden g)) /\ gx g' = gx g /\ gy g' = gy g /\ gn g' = (gn g + gd g)%nat /\ gd g' = 0%nat.
Proof.
  intros PS F B. set (P := hasaxes (length (SN S)) (length (SD S))) in *. destruct (gmap_rel tdrop ddrop S (dropS S) P (fdrop S) g F B) as (es' & E & R).
  unfold gdrop. rewrite E. cbn [rbind]. set (g' := mkG _ _ _ _ es'). exists g'. split; [reflexivity|].
  assert (PS' : spos (dropS S)) by (destruct PS as (? & ? & ? & ?); repeat split; cbn [dropS SX SY SN SD]; auto; [now apply Forall_app|constructor]).
  assert (LN : Forall (fun e => length (ns (iden e)) = length (SN S)) (els g)).
  { clear R E. unfold gfits, elements in *. clear g'. induction (els g) as [|e es IH]; [constructor|]. inversion F as [|? ? (t & -> & Ft) F']; inversion B as [|? ? (t' & Et & Pt) B']; subst. injection Et as <-.
    constructor; [|now apply IH]. cbn [iden den ns]. apply (le1_len _ _ (proj1 (fits_le1 S t Ft Pt))). }
  assert (Z : els g = [] \/ (els g <> [] /\ length (ns (gden g)) = length (SN S) /\ bmaxs (map (fun e => ns (iden e) ++ ds (iden e)) (els g)) = ns (gden g) ++ ds (gden g))).
  { destruct (els g) as [|e0 es0] eqn:Eg; [now left|]. right. split; [discriminate|]. rewrite gd_ns, gd_ds, Eg. rewrite <- Eg in *.
    destruct (bmaxs_app (length (SN S)) (map (fun e => ns (iden e)) (els g)) (map (fun e => ds (iden e)) (els g))) as [Q1 Q2].
    - apply Forall_forall. intros a Ha. apply in_map_iff in Ha as (e & <- & He). exact (proj1 (Forall_forall _ _) LN e He).
    - now rewrite !map_length.
    - rewrite Eg. discriminate.
    - rewrite combine_map, map_map in Q1. cbn [fst snd] in Q1. auto. }
  destruct (gre_same ddrop S (dropS S) P g g' PS' R) as (G1 & G2); [..|now split; [|split; [|repeat split]]].
  - change (els g') with es' in *. unfold shape_of, gshape. cbn [ddrop xs ys ns ds]. rewrite gd_xs, gd_ys. 
    rewrite (rel_sizes xs xs _ _ _ _ _ _ R dsame_xs (fun _ => eq_refl)), (rel_sizes ys ys _ _ _ _ _ _ R dsame_ys (fun _ => eq_refl)),
      (rel_sizes ns (fun a => ns a ++ ds a) _ _ _ _ _ _ R dsame_ns (fun _ => eq_refl)), (rel_sizes ds (fun _ => []) _ _ _ _ _ _ R dsame_ds (fun _ => eq_refl)).
    f_equal.
    + destruct Z as [Z|(_ & _ & Z)]; [|now symmetry]. rewrite gd_ns, gd_ds, Z. reflexivity.
    + clear. induction (els g) as [|e es IH]; [reflexivity|]. cbn [map bmaxs fold_right]. exact IH.
  - intros x y n d _. rewrite get_ddrop, get_gden. unfold gsum_at. apply Rsum_ext; intros e He. rewrite get_ddrop.
    destruct Z as [Z|(_ & Z & _)]; [rewrite Z in He; destruct He|]. rewrite Z, (proj1 (Forall_forall _ _) LN e He). reflexivity.
Qed.

(** *** flip *)
Definition flippable (k : nat) (w : list nat) (t : tensor) : Prop :=
  nn t = k /\ forall j, In j w -> ~ In j (targets (xm t)) /\ ~ In j (targets (ym t)).
Lemma fflip S w t : Forall (fun j => j < length (SN S))%nat w -> fits S t -> flippable (length (SN S)) w t ->
  exists r, tflip t w false = Ok r /\ fits S r /\ dsame (den r) (dflip (den t) w).
Proof.
  intros B F [N A]. pose proof (ft_wf _ _ F) as W. rewrite <- N in B. destruct (tflip_ok t w W (ft_feat _ _ F) B A) as (r & Er & Wr & Tr & De). exists r. split; [exact Er|]. split; [|exact De].
  pose proof De as (E1 & E2 & E3 & E4 & _). cbn [dflip xs ys ns ds] in E1, E2, E3, E4.
  assert (M : xm r = xm t /\ ym r = ym t).
  { unfold tflip in Er. destruct w as [|w0 w']; [injection Er as <-; auto|]. destruct (negb false && _); [discriminate|]. binv Er. cbn [rbind] in Er. apply Tensor_inv in Er. tauto. }
  destruct M as [Mx My]. constructor; auto.
  - apply (rank_of S t r (dflip (den t) w) F Wr De); auto.
  - rewrite E1. apply F.
  - rewrite E2. apply F.
  - change (sN r) with (ns (den r)). rewrite E3. apply F.
  - change (sD r) with (ds (den r)). rewrite E4. apply F.
  - intros f Hf. change (sN r) with (ns (den r)). rewrite E3. apply (ft_full _ _ F). rewrite Mx, My in Hf. tauto.
Qed.
Lemma flip_get a w x y n d : In n (indices (ns a)) -> get (dflip a w) x y n d = get a x y (flip_idx (ns a) w n) d.
Proof. intros Hn. unfold get, dflip. cbn [at_ xs ys ns ds]. now rewrite (clamp_in _ _ Hn), (clamp_in _ _ (flip_in (ns a) w n Hn)). Qed.
Theorem gflip_ok S g w : spos S -> gfits S g -> Forall (fun j => j < length (SN S))%nat w -> elements (flippable (length (SN S)) w) g ->
  exists g', gflip g w false = Ok g' /\ gfits S g' /\ dsame (gden g') (dflip (gden g) w) /\ gx g' = gx g /\ gy g' = gy g /\ gn g' = gn g /\ gd g' = gd g.
Proof.
  intros PS F Bw B. set (P := flippable (length (SN S)) w) in *. destruct (gmap_rel (fun t => tflip t w false) (fun a => dflip a w) S S P (fun t => fflip S w t Bw) g F B) as (es' & E & R).
  unfold gflip. rewrite E. cbn [rbind]. set (g' := mkG _ _ _ _ es'). exists g'. split; [reflexivity|].
  destruct (gre_same (fun a => dflip a w) S S P g g' PS R) as (G1 & G2); [..|now split; [|split; [|repeat split]]].
  - change (els g') with es' in *. unfold shape_of, gshape. cbn [dflip xs ys ns ds]. rewrite gd_xs, gd_ys, gd_ns, gd_ds.
    rewrite (rel_sizes xs xs _ _ _ _ _ _ R dsame_xs (fun _ => eq_refl)), (rel_sizes ys ys _ _ _ _ _ _ R dsame_ys (fun _ => eq_refl)),
      (rel_sizes ns ns _ _ _ _ _ _ R dsame_ns (fun _ => eq_refl)), (rel_sizes ds ds _ _ _ _ _ _ R dsame_ds (fun _ => eq_refl)). reflexivity.
  - intros x y n d (_ & _ & Hn & _).
    assert (EN : SN (gshape (els g')) = ns (gden g)).
    { change (els g') with es'. rewrite gd_ns. unfold gshape. cbn [SN]. now rewrite (rel_sizes ns ns _ _ _ _ _ _ R dsame_ns (fun _ => eq_refl)). }
    rewrite EN in Hn. rewrite (flip_get _ _ _ _ _ _ Hn), get_gden. unfold gsum_at. apply Rsum_ext; intros e He.
    pose proof (proj1 (Forall_forall _ _) B e He) as (t & -> & Pt). cbn [iden].
    assert (Fo : fits (gshape (els g)) t) by (apply (fits_shrink S); auto).
    unfold get. cbn [dflip xs ys ns ds at_]. f_equal.
    apply (flip_clamp (sN t) (ns (gden g))); auto.
    + apply below_len; [rewrite gd_ns; apply (ft_n _ _ Fo)|].
      rewrite (g_n _ _ _ _ _ (wf_groups t (ft_wf _ _ Fo))), (proj1 Pt).
      assert (LN : forall e, In e (els g) -> length (ns (iden e)) = length (SN S)).
      { intros e' He'. pose proof (proj1 (Forall_forall _ _) B e' He') as (t' & -> & Pt'). cbn [iden den ns].
        pose proof (proj1 (Forall_forall _ _) F _ He') as (t'' & Et & Ft). injection Et as <-. rewrite (g_n _ _ _ _ _ (wf_groups t' (ft_wf _ _ Ft))). apply Pt'. }
      rewrite gd_ns. symmetry. apply bmaxs_len.
      * apply Forall_forall. intros a Ha. apply in_map_iff in Ha as (e' & <- & He'). auto.
      * intros Z. apply map_eq_nil in Z. rewrite Z in He. destruct He.
    + apply (wf_dpos t (ft_wf _ _ Fo)).
Qed.
(** flip of dim axes *)
Definition flippable_dim (d : nat) (t : tensor) : Prop := dm t = d.
Lemma fflip_dim S w t : Forall (fun j => j < length (SD S))%nat w -> fits S t -> flippable_dim (length (SD S)) t ->
  exists r, tflip t w true = Ok r /\ fits S r /\ dsame (den r) (dflip_dim (den t) w).
Proof.
  intros B F N. unfold flippable_dim in N. pose proof (ft_wf _ _ F) as W. rewrite <- N in B. destruct (tflip_dim_ok t w W (ft_feat _ _ F) B) as (r & Er & Wr & Tr & _ & _ & Mx & My & De). exists r. split; [exact Er|]. split; [|exact De].
  pose proof De as (E1 & E2 & E3 & E4 & _). cbn [dflip_dim xs ys ns ds] in E1, E2, E3, E4.
  constructor; auto.
  - apply (rank_of S t r (dflip_dim (den t) w) F Wr De); auto.
  - rewrite E1. apply F.
  - rewrite E2. apply F.
  - change (sN r) with (ns (den r)). rewrite E3. apply F.
  - change (sD r) with (ds (den r)). rewrite E4. apply F.
  - intros f Hf. change (sN r) with (ns (den r)). rewrite E3. apply (ft_full _ _ F). rewrite Mx, My in Hf. tauto.
Qed.
Lemma flip_dim_get a w x y n d : In d (indices (ds a)) -> get (dflip_dim a w) x y n d = get a x y n (flip_idx (ds a) w d).
Proof. intros Hn. unfold get, dflip_dim. cbn [at_ xs ys ns ds]. now rewrite (clamp_in _ _ Hn), (clamp_in _ _ (flip_in (ds a) w d Hn)). Qed.
Theorem gflip_dim_ok S g w : spos S -> gfits S g -> Forall (fun j => j < length (SD S))%nat w -> elements (flippable_dim (length (SD S))) g ->
  exists g', gflip g w true = Ok g' /\ gfits S g' /\ dsame (gden g') (dflip_dim (gden g) w) /\ gx g' = gx g /\ gy g' = gy g /\ gn g' = gn g /\ gd g' = gd g.
Proof.
  intros PS F Bw B. set (P := flippable_dim (length (SD S))) in *. destruct (gmap_rel (fun t => tflip t w true) (fun a => dflip_dim a w) S S P (fun t => fflip_dim S w t Bw) g F B) as (es' & E & R).
  unfold gflip. rewrite E. cbn [rbind]. set (g' := mkG _ _ _ _ es'). exists g'. split; [reflexivity|].
  destruct (gre_same (fun a => dflip_dim a w) S S P g g' PS R) as (G1 & G2); [..|now split; [|split; [|repeat split]]].
  - change (els g') with es' in *. unfold shape_of, gshape. cbn [dflip_dim xs ys ns ds]. rewrite gd_xs, gd_ys, gd_ns, gd_ds.
    rewrite (rel_sizes xs xs _ _ _ _ _ _ R dsame_xs (fun _ => eq_refl)), (rel_sizes ys ys _ _ _ _ _ _ R dsame_ys (fun _ => eq_refl)),
      (rel_sizes ns ns _ _ _ _ _ _ R dsame_ns (fun _ => eq_refl)), (rel_sizes ds ds _ _ _ _ _ _ R dsame_ds (fun _ => eq_refl)). reflexivity.
  - intros x y n d (_ & _ & _ & Hn).
    assert (EN : SD (gshape (els g')) = ds (gden g)).
    { change (els g') with es'. rewrite gd_ds. unfold gshape. cbn [SD]. now rewrite (rel_sizes ds ds _ _ _ _ _ _ R dsame_ds (fun _ => eq_refl)). }
    rewrite EN in Hn. rewrite (flip_dim_get _ _ _ _ _ _ Hn), get_gden. unfold gsum_at. apply Rsum_ext; intros e He.
    pose proof (proj1 (Forall_forall _ _) B e He) as (t & -> & Pt). cbn [iden].
    assert (Fo : fits (gshape (els g)) t) by (apply (fits_shrink S); auto).
    unfold get. cbn [dflip_dim xs ys ns ds at_]. f_equal.
    apply (flip_clamp (sD t) (ds (gden g))); auto.
    + apply below_len; [rewrite gd_ds; apply (ft_d _ _ Fo)|].
      rewrite (g_d _ _ _ _ _ (wf_groups t (ft_wf _ _ Fo))), Pt.
      assert (LN : forall e, In e (els g) -> length (ds (iden e)) = length (SD S)).
      { intros e' He'. pose proof (proj1 (Forall_forall _ _) B e' He') as (t' & -> & Pt'). cbn [iden den ds].
        pose proof (proj1 (Forall_forall _ _) F _ He') as (t'' & Et & Ft). injection Et as <-. rewrite (g_d _ _ _ _ _ (wf_groups t' (ft_wf _ _ Ft))). apply Pt'. }
      rewrite gd_ds. symmetry. apply bmaxs_len.
      * apply Forall_forall. intros a Ha. apply in_map_iff in Ha as (e' & <- & He'). auto.
      * intros Z. apply map_eq_nil in Z. rewrite Z in He. destruct He.
    + apply (wf_dpos t (ft_wf _ _ Fo)).
Qed.

(** *** expand *)
Lemma fits_zero0 S t : fits S t -> is_zero0 (tv t) = false.
Proof. intros F. pose proof (ft_rank _ _ F) as N. unfold is_zero0. destruct (shp (tv t)); [easy|reflexivity]. Qed.
Lemma le1_expand_pos w m sh : Forall (fun s => 1 <= s)%nat sh -> Forall (fun s => 1 <= s)%nat (expand_shape sh w m).
Proof.
  intros P. apply Forall_forall. intros s Hs. unfold expand_shape in Hs. apply in_map_iff in Hs as (k & <- & _). destruct (index_of k w) as [j|]; [|lia].
  destruct (Nat.lt_ge_cases j (length sh)) as [H|H]; [|rewrite nth_overflow by exact H; lia]. exact (proj1 (Forall_forall _ _) P _ (nth_In _ _ H)).
Qed.
Lemma fexpand S w m t : (0 < m)%nat -> NoDup w -> Forall (fun k => k < m)%nat w -> length w = length (SN S) -> fits S t -> nn t = length w ->
  exists r, texpand t w m false = Ok r /\ fits (expS w m S) r /\ dsame (den r) (dexpand (den t) w m).
Proof.
  intros Hm ND B L F N. pose proof (ft_wf _ _ F) as W. pose proof (fits_zero0 _ _ F) as Z.
  destruct (texpand_ok t w m W (ft_feat _ _ F) ND B) as (r & Er & Wr & Tr & De); auto.
  destruct (texpand_inv t w m r Z Er) as (Rx & Ry & Cx & Cy). destruct (ft_feat _ _ F) as [T1 T2]. rewrite N in T1, T2.
  rewrite compose_where in Cx by exact T1. rewrite compose_where in Cy by exact T2. injection Cx as Mx. injection Cy as My.
  exists r. split; [exact Er|]. split; [|exact De].
  pose proof De as (E1 & E2 & E3 & E4 & _). cbn [dexpand xs ys ns ds] in E1, E2, E3, E4. change (ns (den t)) with (sN t) in E3.
  assert (LN : le1 (sN t) (SN S)) by (apply below_len; [apply F|rewrite (g_n _ _ _ _ _ (wf_groups t W)); congruence]).
  constructor; cbn [expS SX SY SN SD]; auto.
  - intros Q. apply (rank_groups r Wr) in Q as (_ & _ & Q & _). rewrite E3 in Q. now apply (expand_shape_ne (sN t) w m) in Hm.
  - rewrite E1. apply F.
  - rewrite E2. apply F.
  - change (sN r) with (ns (den r)). rewrite E3. apply le1_below. apply le1_expand; auto.
  - change (sD r) with (ds (den r)). rewrite E4. apply F.
  - intros f Hf. rewrite <- Mx, <- My, !targets_ren in Hf. change (sN r) with (ns (den r)). rewrite E3.
    assert (exists g, f = nth g w O /\ (g < length w)%nat /\ (In g (targets (xm t)) \/ In g (targets (ym t)))) as (g & -> & Lg & Hg).
    { destruct Hf as [Hf|Hf]; apply in_map_iff in Hf as (g & <- & Hg); exists g; (split; [reflexivity|]); (split; [|auto]).
      - exact (proj1 (Forall_forall _ _) T1 g Hg). - exact (proj1 (Forall_forall _ _) T2 g Hg). }
    rewrite !FuncLemmas.nth_expand_shape_wh; auto. now apply F.
Qed.
Lemma bmax_nth a b k : length a = length b -> nth k (bmax a b) 1%nat = Nat.max (nth k a 1%nat) (nth k b 1%nat).
Proof. revert b k; induction a as [|s a IH]; intros [|s' b] k L; try discriminate; [destruct k; reflexivity|]. destruct k; [reflexivity|]. cbn [bmax nth]. apply IH. now injection L. Qed.
Lemma expand_bmax a b w m : length a = length b -> bmax (expand_shape a w m) (expand_shape b w m) = expand_shape (bmax a b) w m.
Proof.
  intros L. unfold expand_shape. induction (seq 0 m) as [|k l IH]; [reflexivity|]. cbn [map bmax]. f_equal; [|exact IH].
  destruct (index_of k w) as [j|]; [|reflexivity]. now rewrite bmax_nth.
Qed.
Lemma expand_bmaxs k w m l : Forall (fun a => length a = k) l -> l <> [] -> bmaxs (map (fun a => expand_shape a w m) l) = expand_shape (bmaxs l) w m.
Proof.
  induction 1 as [|a l Ha Hl IH]; [easy|]. intros _. destruct l as [|b l]; [cbn [map bmaxs fold_right]; now rewrite !bmax_nil_r|].
  assert (NE : b :: l <> []) by discriminate. specialize (IH NE). pose proof (bmaxs_len k _ Hl NE) as E. revert IH E. generalize (b :: l). intros l' IH E.
  cbn [map bmaxs fold_right]. fold (bmaxs l'). change (bmax (expand_shape a w m) (bmaxs (map (fun a => expand_shape a w m) l')) = expand_shape (bmax a (bmaxs l')) w m).
  rewrite IH. apply expand_bmax. congruence.
Qed.
Lemma expand_pos w m sh : posl sh -> posl (expand_shape sh w m).
Proof. apply le1_expand_pos. Qed.
Theorem gexpand_ok S g w m : spos S -> gfits S g -> els g <> [] -> (0 < m)%nat -> NoDup w -> Forall (fun k => k < m)%nat w -> length w = length (SN S) ->
  elements (fun t => nn t = length w) g ->
  exists g', gexpand g w m false = Ok g' /\ gfits (expS w m S) g' /\ dsame (gden g') (dexpand (gden g) w m) /\ gx g' = gx g /\ gy g' = gy g /\ gn g' = m /\ gd g' = gd g.
Proof.
  intros PS F NE Hm ND Bw L B. set (P := fun t => nn t = length w) in *. destruct (gmap_rel (fun t => texpand t w m false) (fun a => dexpand a w m) S (expS w m S) P (fun t => fexpand S w m t Hm ND Bw L) g F B) as (es' & E & R).
  unfold gexpand. rewrite E. cbn [rbind]. set (g' := mkG _ _ _ _ es'). exists g'. split; [reflexivity|].
  assert (PS' : spos (expS w m S)) by (destruct PS as (? & ? & ? & ?); repeat split; cbn [expS SX SY SN SD]; auto; now apply expand_pos).
  assert (LN : forall e, In e (els g) -> length (ns (iden e)) = length w).
  { intros e' He'. pose proof (proj1 (Forall_forall _ _) B e' He') as (t' & -> & Pt'). cbn [iden den ns].
    pose proof (proj1 (Forall_forall _ _) F _ He') as (t'' & Et & Ft). injection Et as <-. rewrite (g_n _ _ _ _ _ (wf_groups t' (ft_wf _ _ Ft))). apply Pt'. }
  assert (LF : Forall (fun a => length a = length w) (map (fun e => ns (iden e)) (els g))).
  { apply Forall_forall. intros a Ha. apply in_map_iff in Ha as (e' & <- & He'). auto. }
  assert (NM : map (fun e => ns (iden e)) (els g) <> []) by (intros Q; now apply map_eq_nil in Q).
  assert (LG : length (ns (gden g)) = length w) by (rewrite gd_ns; now apply bmaxs_len).
  destruct (gre_same (fun a => dexpand a w m) S (expS w m S) P g g' PS' R) as (G1 & G2); [..|now split; [|split; [|repeat split]]].
  - change (els g') with es' in *. unfold shape_of, gshape. cbn [dexpand xs ys ns ds]. rewrite gd_xs, gd_ys, gd_ns, gd_ds.
    rewrite (rel_sizes xs xs _ _ _ _ _ _ R dsame_xs (fun _ => eq_refl)), (rel_sizes ys ys _ _ _ _ _ _ R dsame_ys (fun _ => eq_refl)),
      (rel_sizes ns (fun a => expand_shape (ns a) w m) _ _ _ _ _ _ R dsame_ns (fun _ => eq_refl)), (rel_sizes ds ds _ _ _ _ _ _ R dsame_ds (fun _ => eq_refl)).
    rewrite <- (expand_bmaxs (length w) w m _ LF NM), map_map. reflexivity.
  - intros x y n d _. rewrite get_dexpand, get_gden by auto. unfold gsum_at. apply Rsum_ext; intros e He. rewrite get_dexpand; auto.
Qed.
Lemma fexpand_dim S w m t : (0 < m)%nat -> NoDup w -> Forall (fun k => k < m)%nat w -> length w = length (SD S) -> fits S t -> dm t = length w ->
  exists r, texpand t w m true = Ok r /\ fits (expDS w m S) r /\ dsame (den r) (dexpand_dim (den t) w m).
Proof.
  intros Hm ND B L F N. pose proof (ft_wf _ _ F) as W. pose proof (fits_zero0 _ _ F) as Z.
  destruct (texpand_dim_ok t w m W (ft_feat _ _ F) ND B) as (r & Er & Wr & Tr & De); auto.
  destruct (texpand_dim_inv t w m r Z Er) as (Rx & Ry & Mx & My).
  exists r. split; [exact Er|]. split; [|exact De].
  pose proof De as (E1 & E2 & E3 & E4 & _). cbn [dexpand_dim xs ys ns ds] in E1, E2, E3, E4. change (ds (den t)) with (sD t) in E4.
  assert (LN : le1 (sD t) (SD S)) by (apply below_len; [apply F|rewrite (g_d _ _ _ _ _ (wf_groups t W)); congruence]).
  constructor; cbn [expDS SX SY SN SD]; auto.
  - intros Q. apply (rank_groups r Wr) in Q as (_ & _ & _ & Q). rewrite E4 in Q. now apply (expand_shape_ne (sD t) w m) in Hm.
  - rewrite E1. apply F.
  - rewrite E2. apply F.
  - change (sN r) with (ns (den r)). rewrite E3. apply F.
  - change (sD r) with (ds (den r)). rewrite E4. apply le1_below. apply le1_expand; auto.
  - intros f Hf. rewrite Mx, My in Hf. change (sN r) with (ns (den r)). rewrite E3. now apply F.
Qed.
Theorem gexpand_dim_ok S g w m : spos S -> gfits S g -> els g <> [] -> (0 < m)%nat -> NoDup w -> Forall (fun k => k < m)%nat w -> length w = length (SD S) ->
  elements (fun t => dm t = length w) g ->
  exists g', gexpand g w m true = Ok g' /\ gfits (expDS w m S) g' /\ dsame (gden g') (dexpand_dim (gden g) w m) /\ gx g' = gx g /\ gy g' = gy g /\ gn g' = gn g /\ gd g' = m.
Proof.
  intros PS F NE Hm ND Bw L B. set (P := fun t => dm t = length w) in *. destruct (gmap_rel (fun t => texpand t w m true) (fun a => dexpand_dim a w m) S (expDS w m S) P (fun t => fexpand_dim S w m t Hm ND Bw L) g F B) as (es' & E & R).
  unfold gexpand. rewrite E. cbn [rbind]. set (g' := mkG _ _ _ _ es'). exists g'. split; [reflexivity|].
  assert (PS' : spos (expDS w m S)) by (destruct PS as (? & ? & ? & ?); repeat split; cbn [expDS SX SY SN SD]; auto; now apply expand_pos).
  assert (LN : forall e, In e (els g) -> length (ds (iden e)) = length w).
  { intros e' He'. pose proof (proj1 (Forall_forall _ _) B e' He') as (t' & -> & Pt'). cbn [iden den ds].
    pose proof (proj1 (Forall_forall _ _) F _ He') as (t'' & Et & Ft). injection Et as <-. rewrite (g_d _ _ _ _ _ (wf_groups t' (ft_wf _ _ Ft))). apply Pt'. }
  assert (LF : Forall (fun a => length a = length w) (map (fun e => ds (iden e)) (els g))).
  { apply Forall_forall. intros a Ha. apply in_map_iff in Ha as (e' & <- & He'). auto. }
  assert (NM : map (fun e => ds (iden e)) (els g) <> []) by (intros Q; now apply map_eq_nil in Q).
  assert (LG : length (ds (gden g)) = length w) by (rewrite gd_ds; now apply bmaxs_len).
  destruct (gre_same (fun a => dexpand_dim a w m) S (expDS w m S) P g g' PS' R) as (G1 & G2); [..|now split; [|split; [|repeat split]]].
  - change (els g') with es' in *. unfold shape_of, gshape. cbn [dexpand_dim xs ys ns ds]. rewrite gd_xs, gd_ys, gd_ns, gd_ds.
    rewrite (rel_sizes xs xs _ _ _ _ _ _ R dsame_xs (fun _ => eq_refl)), (rel_sizes ys ys _ _ _ _ _ _ R dsame_ys (fun _ => eq_refl)),
      (rel_sizes ns ns _ _ _ _ _ _ R dsame_ns (fun _ => eq_refl)), (rel_sizes ds (fun a => expand_shape (ds a) w m) _ _ _ _ _ _ R dsame_ds (fun _ => eq_refl)).
    rewrite <- (expand_bmaxs (length w) w m _ LF NM), map_map. reflexivity.
  - intros x y n d _. rewrite get_dexpand_dim, get_gden by auto. unfold gsum_at. apply Rsum_ext; intros e He. rewrite get_dexpand_dim; auto.
Qed.
