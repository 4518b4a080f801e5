(** Reindexing operations and contractions of represented tables. *)
From Verif Require Import Prelude DenseModel AnalyticSpec DenseProofs NDArray NDProofs TensorModel TensorSpec TensorSpecOps TensorLemmas TensorBasic TensorSum TensorSumMain TensorBin TensorArith TensorShape TensorExpand TensorGeneric TensorGSum TensorDotCore TensorDot TensorUfunc TensorUfuncP FuncModel FTModel FTRep.
From Verif Require FuncLemmas.
From Coq Require Import Reals Lra.
Import List ListNotations.
Open Scope R_scope.

Lemma Tensor_inv v x y d mx my t : Tensor v x y d mx my = Ok t ->
  xm t = mx /\ ym t = my /\ xd t = x /\ yd t = y /\ dm t = d /\ tv t = v.
Proof. unfold Tensor. destruct (_ <? _)%nat; [discriminate|]. intros E. injection E as <-. cbn. repeat split. Qed.
Ltac tinv E := apply Tensor_inv in E; destruct E as (? & ? & ? & ? & ? & ?).
Ltac binv H := match type of H with rbind ?e _ = _ => let E := fresh "Eb" in destruct e eqn:E; [cbn [rbind] in H|discriminate] end.
Section ex.
Context {ex : exdims}.

(** a map over the elements *)
Definition additive_map (S S' : shape4) (Phi : table -> table) : Prop :=
  (forall F G, tabeq S F G -> tabeq S' (Phi F) (Phi G)) /\
  tabeq S' (Phi (fun _ _ _ _ => 0)) (fun _ _ _ _ => 0) /\
  (forall F G, tabeq S' (Phi (fun x y n d => F x y n d + G x y n d)) (fun x y n d => Phi F x y n d + Phi G x y n d)).
Definition cnt (S : shape4) (es : list item) : gtensor := mkG (length (SX S)) (length (SY S)) (length (SN S)) (length (SD S)) es.
Lemma gmap_rep (f : tensor -> res tensor) Q Q' S S' Phi : additive_map S S' Phi ->
  (forall t, tfit Q S t -> is_zero0 (tv t) = false -> exists r, f t = Ok r /\ tfit Q' S' r /\ tabeq S' (get (den r)) (Phi (get (den t)))) ->
  nonscalar S -> forall es, Forall (ifit Q S) es ->
  exists es', rmapM (on_item (fun t => let! t' := f t in Ok (IT t'))) es = Ok es' /\ Forall (ifit Q' S') es' /\ length es' = length es /\
    tabeq S' (gsum_at es') (Phi (gsum_at es)).
Proof.
  intros (A1 & A2 & A3) Ht NS. induction es as [|e es IH]; intros A; cbn [rmapM].
  - exists []. repeat split; auto. intros x y n d Hi. unfold gsum_at at 1. rewrite Rsum_nil. symmetry. rewrite <- (A2 x y n d Hi). apply (A1 _ _ (fun x y n d _ => eq_refl) x y n d Hi).
  - inversion A as [|? ? (t & -> & Ft) A']; subst. cbn [on_item]. destruct (Ht t Ft) as (r & Er & Fr & V); [apply rank_not_zero; apply (xfits_rank S); auto; apply Ft|].
    rewrite Er. cbn [rbind]. destruct (IH A') as (es' & E & F' & L & V'). rewrite E. cbn [rbind]. exists (IT r :: es'). split; [reflexivity|].
    split; [constructor; [exists r; auto|exact F']|]. split; [cbn; lia|]. intros x y n d Hi. unfold gsum_at at 1. rewrite Rsum_cons. cbn [iden].
    rewrite (V x y n d Hi). change (Rsum (fun e => get (iden e) x y n d) es') with (gsum_at es' x y n d). rewrite (V' x y n d Hi).
    rewrite <- (A3 (get (den t)) (gsum_at es) x y n d Hi). apply A1; auto. intros x' y' n' d' _. unfold gsum_at. rewrite Rsum_cons. reflexivity.
Qed.
Lemma rep_map (f : tensor -> res tensor) (P : pval -> res pval) nz Q Q' S S' Phi v F : additive_map S S' Phi ->
  (forall t, tfit Q S t -> is_zero0 (tv t) = false -> exists r, f t = Ok r /\ tfit Q' S' r /\ tabeq S' (get (den r)) (Phi (get (den t)))) ->
  (forall t, tfit Q S t -> is_zero0 (tv t) = false -> forall r, f t = Ok r -> is_zero0 (tv r) = false) ->
  (forall t, P (PT t) = rmap PT (f t)) ->
  (forall g es, pf Q S (PG g) -> rmapM (on_item (fun t => let! t' := f t in Ok (IT t'))) (els g) = Ok es -> P (PG g) = Ok (PG (cnt S' es))) ->
  (nz = false -> forall v, zval v -> exists w, P v = Ok w /\ zval w) ->
  (nonscalar S -> nonscalar S') ->
  rep nz Q S v F -> exists w, P v = Ok w /\ rep nz Q' S' w (Phi F).
Proof.
  intros AM Ht Hz HT HG H0 HN [(-> & Z & E)|(Pv & E)].
  - destruct (H0 eq_refl v Z) as (w & Ew & Zw). exists w. split; [exact Ew|]. left. split; [reflexivity|]. split; [exact Zw|].
    destruct AM as (A1 & A2 & _). intros x y n d Hi. rewrite <- (A2 x y n d Hi). now apply A1.
  - destruct v as [| |t|g]; try now destruct Pv.
    + destruct Pv as [Ft Z]. destruct (Ht t Ft Z) as (r & Er & Fr & V). rewrite HT, Er. exists (PT r). split; [reflexivity|]. right. split; [split; eauto|].
      intros x y n d Hi. cbn [vden]. rewrite (V x y n d Hi). now apply AM.
    + pose proof Pv as (Ne & A & NS & _). destruct (gmap_rep f Q Q' S S' Phi AM Ht NS (els g) A) as (es' & Ee & F' & L & V).
      rewrite (HG g es' Pv Ee). eexists. split; [reflexivity|]. right. split.
      * unfold cnt. cbn [pf els gx gy gn gd]. split; [destruct es'; [destruct (els g); [congruence|discriminate]|discriminate]|]. repeat split; auto.
      * intros x y n d Hi. cbn [vden]. rewrite get_gden. cbn [cnt els]. rewrite (V x y n d Hi). apply AM; auto. intros x' y' n' d' Hi'. rewrite <- (E x' y' n' d' Hi'). cbn [vden]. now rewrite get_gden.
Qed.
Lemma le1_nil b : le1 [] b -> b = [].
Proof. intros H. now inversion H. Qed.
(** a rank-0 tensor *)
Lemma rank0_get t x y n d : wf t -> shp (tv t) = [] -> get (den t) x y n d = el (tv t) [].
Proof.
  intros W S0. destruct (rank0_groups t W S0) as (X & Y & N & D & Mx & My). unfold get, den; cbn [xs ys ns ds at_]. unfold sX, sY, sN, sD.
  rewrite S0, X, Y, N, Mx, My. cbn. ring.
Qed.
Lemma zero0_shape S S' t r Phi : is_zero0 (tv t) = false -> wf t -> wf r -> (shp (tv r) = [] -> shp (tv t) = []) ->
  (forall v, tabeq S' (Phi (fun _ _ _ _ => v)) (fun _ _ _ _ => v)) ->
  xfits S' r -> tabeq S' (get (den r)) (Phi (get (den t))) -> additive_map S S' Phi -> is_zero0 (tv r) = false.
Proof.
  intros Zt Wt Wr Hs HP X V (A1 & _). unfold is_zero0 in *. destruct (shp (tv r)) eqn:Er; [|reflexivity]. rewrite (Hs eq_refl) in Zt.
  destruct (Req_EM_T (el (tv t) []) 0) as [|Hn]; [discriminate|]. destruct (Req_EM_T (el (tv r) []) 0) as [Hz|]; [|reflexivity]. exfalso. apply Hn.
  apply (rank_groups r Wr) in Er as Er'. destruct Er' as (E1 & E2 & E3 & E4).
  assert (AS : at_shape S' [] [] [] []).
  { destruct X as [? ? ? Lx Ly Ln Ld ?]. change (sN r) with (ns (den r)) in Ln. change (sD r) with (ds (den r)) in Ld. rewrite E1 in Lx. rewrite E2 in Ly. rewrite E3 in Ln. rewrite E4 in Ld.
    apply DR_le1 in Ld. apply le1_nil in Ln, Ld. unfold at_shape. rewrite <- Lx, <- Ly, Ln, Ld. cbn. auto. }
  pose proof (V [] [] [] [] AS) as Q. rewrite (rank0_get r) in Q by auto. rewrite <- Hz, Q.
  rewrite <- (HP (el (tv t) []) [] [] [] [] AS). apply A1; auto. intros x y n d _. symmetry. now apply rank0_get; auto.
Qed.

(** *** drop_dim *)
Lemma le1_app a b c d : le1 a b -> le1 c d -> le1 (a ++ c) (b ++ d).
Proof. apply Forall2_app. Qed.
Definition dropS (S : shape4) : shape4 := SH (SX S) (SY S) (SN S ++ SD S) [].
Definition dropT (k : nat) (F : table) : table := fun x y n _ => F x y (firstn k n) (skipn k n).
Lemma at_drop S x y n d : at_shape (dropS S) x y n d -> at_shape S x y (firstn (length (SN S)) n) (skipn (length (SN S)) n).
Proof. intros (H1 & H2 & H3 & H4). cbn [dropS SX SY SN SD] in *. apply in_indices_app in H3 as [H3 H5]. repeat split; auto. Qed.
Lemma xdrop S t : xfits S t -> exists r, tdrop t = Ok r /\ xfits (dropS S) r /\ xm r = xm t /\ ym r = ym t /\ tv r = tv t /\
  tabeq (dropS S) (get (den r)) (dropT (length (SN S)) (get (den t))).
Proof.
  intros X. pose proof (xf_wf _ _ X) as W. destruct (tdrop_ok t W) as (r & Er & Wr & De). pose proof Er as Ei. unfold tdrop in Ei. tinv Ei.
  pose proof De as (E1 & E2 & E3 & E4 & _). cbn [ddrop xs ys ns ds den] in E1, E2, E3, E4.
  assert (Xr : xfits (dropS S) r).
  { destruct X as [_ T M A B C D F]. constructor; cbn [dropS SX SY SN SD]; auto.
    - destruct T as [T1 T2]. assert (L : (nn t <= nn r)%nat). { rewrite <- (g_n _ _ _ _ _ (wf_groups r Wr)). rewrite E3, app_length, (g_n _ _ _ _ _ (wf_groups t W)). lia. }
      split; rewrite ?H, ?H0; (eapply Forall_impl; [|eassumption]); intros; cbn beta in *; lia.
    - unfold tmapped. rewrite H, H0, H1, H2. exact M.
    - cbn [den xs]. rewrite E1. exact A.
    - cbn [den ys]. rewrite E2. exact B.
    - rewrite E3. apply DR_le1 in D. now apply le1_app.
    - rewrite E4. apply DR_same.
    - intros f Hf. rewrite H, H0 in Hf. rewrite E3. pose proof (F f Hf) as Ff. assert (Lf := feat_lt t f W T Hf).
      rewrite !app_nth1; auto. rewrite <- (le1_len _ _ C). exact Lf. }
  exists r. split; [exact Er|]. split; [exact Xr|]. repeat split; auto.
  intros x y n d Hi. rewrite (dsame_at (dropS S) _ _ x y n d De (wf_dpos r Wr) (xfits_dbelow _ _ Xr) Hi).
  rewrite get_ddrop. unfold dropT. cbn [den ns]. rewrite (le1_len _ _ (xf_n _ _ X)). reflexivity.
Qed.
Theorem rdrop nz Q S v F : rep nz Q S v F -> exists w, pdrop v = Ok w /\ rep nz Q (dropS S) w (dropT (length (SN S)) F).
Proof.
  apply (rep_map tdrop).
  - split; [|split]; unfold dropT.
    + intros F0 G H x y n d Hi. apply H. now apply (at_drop S x y n d).
    + intros x y n d _. reflexivity.
    + intros F0 G x y n d _. reflexivity.
  - intros t [X q] _. destruct (xdrop S t X) as (r & Er & Xr & Mx & My & Ev & V). exists r. split; [exact Er|]. split; [split; auto; now rewrite Mx, My|exact V].
  - intros t [X q] Z r Er. unfold tdrop in Er. tinv Er. congruence.
  - reflexivity.
  - intros g es (Ne & A & NS & C1 & C2 & C3 & C4) E. cbn [pdrop]. unfold gdrop, gmap. rewrite E. cbn [rbind rmap]. unfold cnt, dropS. cbn [SX SY SN SD length]. rewrite app_length, C1, C2, C3, C4. reflexivity.
  - intros _ u (t & -> & S0 & V & X & Y & N & D & Mx & My). cbn [pdrop]. unfold tdrop, Tensor, ndim. rewrite S0, X, Y. cbn [length Nat.add Nat.ltb Nat.leb rmap rbind]. eexists. split; [reflexivity|].
    eexists. split; [reflexivity|]. cbn. repeat split; auto.
  - unfold nonscalar, dropS. cbn [SN SD]. now rewrite app_nil_r.
Qed.

(** *** transposition *)
Definition transS (S : shape4) : shape4 := SH (SY S) (SX S) (SN S) (SD S).
Definition transT (F : table) : table := fun x y n d => F y x n d.
Definition flipQ (Q : mcond) : mcond := fun a b => Q b a.
Lemma all_mapped_ones m X : single_at m X -> length (targets m) = length X -> Forall (fun s => s = 1%nat) X.
Proof.
  assert (L : forall m X, single_at m X -> (length (targets m) <= length X)%nat).
  { induction m0 as [|[f|] m0 IH]; intros [|s X0] H; cbn in *; try lia; try tauto; [destruct H as [_ H]; apply IH in H; lia|apply IH in H; lia]. }
  revert X; induction m as [|[f|] m IH]; intros [|s X] H E; cbn in *; try discriminate; try tauto; auto.
  - destruct H as [-> H]. constructor; auto.
  - apply L in H. lia.
Qed.
Lemma xfits_ones S t : xfits S t -> Forall (fun s => s = 1%nat) (sX t ++ sY t).
Proof.
  intros X. pose proof (wf_groups t (xf_wf _ _ X)) as G. destruct (xf_map _ _ X) as [M1 M2]. apply Forall_app. split.
  - apply (all_mapped_ones (xm t)); [apply (wf_x _ (xf_wf _ _ X))|]. now rewrite (g_x _ _ _ _ _ G).
  - apply (all_mapped_ones (ym t)); [apply (wf_y _ (xf_wf _ _ X))|]. now rewrite (g_y _ _ _ _ _ G).
Qed.
Lemma xtrans S t : xfits S t -> exists r, ttranspose t = Ok r /\ xfits (transS S) r /\ xm r = ym t /\ ym r = xm t /\ shp (tv r) = sY t ++ sX t ++ sN t ++ sD t /\
  tabeq (transS S) (get (den r)) (transT (get (den t))).
Proof.
  intros X. pose proof (xf_wf _ _ X) as W. assert (TR : transposable t) by (right; right; right; now apply (xfits_ones S)).
  destruct (ttranspose_full t W TR) as (r & Er & Es & Wr & Tr & De). pose proof Er as Ei. unfold ttranspose in Ei.
  match type of Ei with rbind ?e _ = _ => destruct e as [v|]; [cbn [rbind] in Ei|discriminate] end. tinv Ei.
  pose proof De as (E1 & E2 & E3 & E4 & _). cbn [dtrans xs ys ns ds den] in E1, E2, E3, E4.
  assert (Xr : xfits (transS S) r).
  { destruct X as [_ T M A B C D F]. constructor; cbn [transS SX SY SN SD]; auto.
    - unfold tmapped. rewrite H, H0, H1, H2. destruct M. auto.
    - cbn [den xs]. rewrite E1. exact B.
    - cbn [den ys]. rewrite E2. exact A.
    - now rewrite E3.
    - now rewrite E4.
    - intros f Hf. rewrite H, H0 in Hf. rewrite E3. apply F. tauto. }
  exists r. split; [exact Er|]. split; [exact Xr|]. repeat split; auto.
  intros x y n d Hi. rewrite (dsame_at (transS S) _ _ x y n d De (wf_dpos r Wr) (xfits_dbelow _ _ Xr) Hi). now rewrite get_dtrans.
Qed.
Lemma at_trans S x y n d : at_shape (transS S) x y n d -> at_shape S y x n d.
Proof. intros (H1 & H2 & H3 & H4). repeat split; auto. Qed.
Theorem rtrans nz Q S v F : rep nz Q S v F -> exists w, ptranspose v = Ok w /\ rep nz (flipQ Q) (transS S) w (transT F).
Proof.
  assert (AM : additive_map S (transS S) transT).
  { split; [|split]; unfold transT. + intros F0 G H x y n d Hi. apply H. now apply (at_trans S x y n d). + intros x y n d _. reflexivity. + intros F0 G x y n d _. reflexivity. }
  apply (rep_map ttranspose); auto.
  - intros t [X q] _. destruct (xtrans S t X) as (r & Er & Xr & Mx & My & Ev & V). exists r. split; [exact Er|]. split; [split; auto; unfold flipQ; now rewrite Mx, My|exact V].
  - intros t [X q] Z r Er. destruct (xtrans S t X) as (r' & Er' & Xr & Mx & My & Es & V). rewrite Er in Er'. injection Er' as <-.
    apply (zero0_shape S (transS S) t r transT); auto; try apply X; try apply Xr.
    + intros E. rewrite Es in E. pose proof (wf_groups t (xf_wf _ _ X)) as G. rewrite (g_shp _ _ _ _ _ G). apply app_eq_nil in E as [-> E]. apply app_eq_nil in E as [-> E]. exact E.
    + intros v0 x y n d _. reflexivity.
  - intros g es (Ne & A & NS & C1 & C2 & C3 & C4) E. cbn [ptranspose]. unfold gtranspose, gmap. rewrite E. cbn [rbind rmap]. unfold cnt, transS. cbn [SX SY SN SD]. rewrite C1, C2, C3, C4. reflexivity.
  - intros _ u (t & -> & S0 & V & X & Y & N & D & Mx & My). cbn [ptranspose]. unfold ttranspose, Tensor, ndim. rewrite X, Y, D. cbn [Nat.ltb Nat.leb andb rbind]. rewrite S0. cbn [length Nat.add Nat.ltb Nat.leb rmap rbind].
    eexists. split; [reflexivity|]. eexists. split; [reflexivity|]. cbn. repeat split; auto.
Qed.

(** *** expand *)
Definition expS (w : list nat) (m : nat) (S : shape4) : shape4 := SH (SX S) (SY S) (expand_shape (SN S) w m) (SD S).
Definition expT (w : list nat) (F : table) : table := fun x y n d => F x y (pull w n) d.
Definition expDS (w : list nat) (m : nat) (S : shape4) : shape4 := SH (SX S) (SY S) (SN S) (expand_shape (SD S) w m).
Definition expDT (w : list nat) (F : table) : table := fun x y n d => F x y n (pull w d).
Lemma get_dexpand a w m x y n d : length (ns a) = length w -> NoDup w -> Forall (fun k => k < m)%nat w ->
  get (dexpand a w m) x y n d = get a x y (pull w n) d.
Proof.
  intros L ND B. unfold dexpand. unfold get at 1. cbn [xs ys ns ds at_]. unfold get. rewrite !clamp_idem.
  rewrite FuncLemmas.clamp_pull; auto. lia.
Qed.
Lemma get_dexpand_dim a w m x y n d : length (ds a) = length w -> NoDup w -> Forall (fun k => k < m)%nat w ->
  get (dexpand_dim a w m) x y n d = get a x y n (pull w d).
Proof.
  intros L ND B. unfold dexpand_dim. unfold get at 1. cbn [xs ys ns ds at_]. unfold get. rewrite !clamp_idem.
  rewrite FuncLemmas.clamp_pull; auto. lia.
Qed.
Lemma le1_expand a b w m : le1 a b -> length b = length w -> le1 (expand_shape a w m) (expand_shape b w m).
Proof.
  intros H L. apply le1_nth; [now rewrite !FuncLemmas.expand_shape_length|]. rewrite FuncLemmas.expand_shape_length. intros f Hf.
  rewrite !FuncLemmas.nth_expand_shape by auto. destruct (index_of f w) as [j|] eqn:E; [|auto]. apply FuncLemmas.index_of_lt in E as [Hj _].
  apply nth_le1; auto. rewrite (le1_len _ _ H). lia.
Qed.
Lemma expand_shape_ne sh w m : (0 < m)%nat -> expand_shape sh w m <> [].
Proof. intros H E. apply (f_equal (@length nat)) in E. rewrite FuncLemmas.expand_shape_length in E. cbn in E. lia. Qed.
Lemma texpand_inv t w m r : is_zero0 (tv t) = false -> texpand t w m false = Ok r ->
  xd r = xd t /\ yd r = yd t /\ compose_mappings (map Some w) (xm t) = Ok (xm r) /\ compose_mappings (map Some w) (ym t) = Ok (ym r).
Proof.
  intros Z E. unfold texpand in E. destruct (negb _); [discriminate|]. rewrite Z in E. destruct (negb _); [discriminate|].
  destruct (compose_mappings (map Some w) (xm t)) as [mx|]; [cbn [rbind] in E|discriminate].
  destruct (compose_mappings (map Some w) (ym t)) as [my|]; [cbn [rbind] in E|discriminate].
  binv E. binv E. tinv E. subst. repeat split; auto.
Qed.
Lemma texpand_dim_inv t w m r : is_zero0 (tv t) = false -> texpand t w m true = Ok r ->
  xd r = xd t /\ yd r = yd t /\ xm r = xm t /\ ym r = ym t.
Proof.
  intros Z E. unfold texpand in E. destruct (negb _); [discriminate|]. rewrite Z in E. destruct (negb _); [discriminate|].
  binv E. binv E. tinv E. subst. repeat split; auto.
Qed.
Lemma targets_ren_len w m : length (targets (ren w m)) = length (targets m).
Proof. rewrite targets_ren. apply map_length. Qed.
Lemma xexpand S t w m : xfits S t -> is_zero0 (tv t) = false -> NoDup w -> Forall (fun k => k < m)%nat w -> length w = length (SN S) ->
  exists r, texpand t w m false = Ok r /\ xfits (expS w m S) r /\ xm r = ren w (xm t) /\ ym r = ren w (ym t) /\
    tabeq (expS w m S) (get (den r)) (expT w (get (den t))).
Proof.
  intros X Z ND B L. pose proof (xf_wf _ _ X) as W. destruct (xfits_dims S t X) as (D1 & D2 & D3 & D4).
  destruct (texpand_ok t w m W (xf_feat _ _ X) ND B) as (r & Er & Wr & Tr & De); auto; [congruence|].
  destruct (texpand_inv t w m r Z Er) as (Rx & Ry & Cx & Cy). destruct (xf_feat _ _ X) as [T1 T2]. rewrite D3, <- L in T1, T2.
  rewrite compose_where in Cx by exact T1. rewrite compose_where in Cy by exact T2. injection Cx as Mx. injection Cy as My.
  pose proof De as (E1 & E2 & E3 & E4 & _). cbn [dexpand xs ys ns ds den] in E1, E2, E3, E4.
  assert (LN : length (sN t) = length w) by (rewrite (le1_len _ _ (xf_n _ _ X)); auto).
  assert (Xr : xfits (expS w m S) r).
  { destruct X as [_ T M A B' C D F]. constructor; cbn [expS SX SY SN SD]; auto.
    - unfold tmapped. rewrite <- Mx, <- My, !targets_ren_len, Rx, Ry. exact M.
    - cbn [den xs]. rewrite E1. exact A.
    - cbn [den ys]. rewrite E2. exact B'.
    - rewrite E3. apply le1_expand; auto.
    - now rewrite E4.
    - intros f Hf. rewrite <- Mx, <- My, !targets_ren in Hf. rewrite E3.
      assert (exists g, f = nth g w O /\ (g < length w)%nat /\ (In g (targets (xm t)) \/ In g (targets (ym t)))) as (g & -> & Lg & Hg).
      { destruct Hf as [Hf|Hf]; apply in_map_iff in Hf as (g & <- & Hg); exists g; (split; [reflexivity|]); (split; [|auto]).
        - exact (proj1 (Forall_forall _ _) T1 g Hg). - exact (proj1 (Forall_forall _ _) T2 g Hg). }
      rewrite !FuncLemmas.nth_expand_shape_wh; auto. }
  exists r. split; [exact Er|]. split; [exact Xr|]. split; [auto|]. split; [auto|].
  intros x y n d Hi. rewrite (dsame_at (expS w m S) _ _ x y n d De (wf_dpos r Wr) (xfits_dbelow _ _ Xr) Hi). now apply get_dexpand.
Qed.
Lemma at_exp w m S x y n d : length w = length (SN S) -> NoDup w -> Forall (fun k => k < m)%nat w -> at_shape (expS w m S) x y n d -> at_shape S x y (pull w n) d.
Proof. intros L ND B (H1 & H2 & H3 & H4). repeat split; auto. cbn [expS SN] in H3. now apply (FuncLemmas.expand_shape_in _ w m). Qed.
Lemma at_expD w m S x y n d : length w = length (SD S) -> NoDup w -> Forall (fun k => k < m)%nat w -> at_shape (expDS w m S) x y n d -> at_shape S x y n (pull w d).
Proof. intros L ND B (H1 & H2 & H3 & H4). repeat split; auto. cbn [expDS SD] in H4. now apply (FuncLemmas.expand_shape_in _ w m). Qed.
Lemma all_lt_0 w : Forall (fun k => k < 0)%nat w -> w = [].
Proof. destruct w; auto. intros H. inversion H. lia. Qed.
Definition renQ (w : list nat) (Q : mcond) : mcond := fun a b => exists a' b', a = ren w a' /\ b = ren w b' /\ Q a' b'.
Lemma texpand_zval (v : pval) w m b : zval v -> Forall (fun k => k < m)%nat w -> exists u, pexpand v w m b = Ok u /\ zval u.
Proof.
  intros Z B. destruct (zval_inv v Z) as [t ->]. cbn [pexpand]. rewrite texpand_zero; auto; [|now apply zval_zero0]. exists (PT (tnum 0)). split; [reflexivity|apply zval_tnum].
Qed.
Theorem rexpand nz Q S v F w m : NoDup w -> Forall (fun k => k < m)%nat w -> length w = length (SN S) ->
  rep nz Q S v F -> exists u, pexpand v w m false = Ok u /\ rep nz (renQ w Q) (expS w m S) u (expT w F).
Proof.
  intros ND B L.
  assert (AM : additive_map S (expS w m S) (expT w)).
  { split; [|split]; unfold expT.
    + intros F0 G H x y n d Hi. apply H. now apply (at_exp w m S x y n d). + intros x y n d _. reflexivity. + intros F0 G x y n d _. reflexivity. }
  apply (rep_map (fun t => texpand t w m false) (fun v => pexpand v w m false)); auto.
  - intros t [X q] Z. destruct (xexpand S t w m X Z ND B L) as (r & Er & Xr & Mx & My & V). exists r. split; [exact Er|]. split; [split; auto; exists (xm t), (ym t); auto|exact V].
  - intros t [X q] Z r Er. destruct (xexpand S t w m X Z ND B L) as (r' & Er' & Xr & Mx & My & V). rewrite Er in Er'. injection Er' as <-.
    apply (zero0_shape S (expS w m S) t r (expT w)); auto; try apply X; try apply Xr.
    + intros E. apply (rank_groups r (xf_wf _ _ Xr)) in E as (E1 & E2 & E3 & E4). apply (rank_groups t (xf_wf _ _ X)).
      destruct (xfits_dims _ _ X) as (D1 & D2 & D3 & D4). destruct (xfits_dims _ _ Xr) as (R1 & R2 & R3 & R4). cbn [expS SX SY SN SD] in *.
      destruct (den_x_len r (xf_wf _ _ Xr)) as [A1 A2]. destruct (den_x_len t (xf_wf _ _ X)) as [A3 A4]. rewrite E1 in A1. rewrite E2 in A2. cbn [length] in A1, A2.
      pose proof (wf_groups r (xf_wf _ _ Xr)) as G. pose proof (wf_groups t (xf_wf _ _ X)) as G'. cbn [den ns ds] in E3, E4.
      pose proof (g_n _ _ _ _ _ G) as G1. pose proof (g_d _ _ _ _ _ G) as G2. rewrite E3 in G1. rewrite E4 in G2. cbn [length] in G1, G2.
      assert (m = 0)%nat by (rewrite FuncLemmas.expand_shape_length in R3; lia). subst m. apply all_lt_0 in B. subst w. cbn [length] in L.
      repeat split; apply length_zero_iff_nil.
      * lia.
      * lia.
      * cbn [den ns]. rewrite (g_n _ _ _ _ _ G'). lia.
      * cbn [den ds]. rewrite (g_d _ _ _ _ _ G'). lia.
    + intros v0 x y n d _. reflexivity.
  - intros g es (Ne & A & NS & C1 & C2 & C3 & C4) E. cbn [pexpand]. unfold gexpand, gmap. rewrite E. cbn [rbind rmap]. unfold cnt, expS. cbn [SX SY SN SD]. rewrite FuncLemmas.expand_shape_length, C1, C2, C4. reflexivity.
  - intros _ u Z. now apply texpand_zval.
  - unfold nonscalar, expS. cbn [SN SD]. intros H E. apply app_eq_nil in E as [E1 E2]. apply H. rewrite E2, app_nil_r.
    destruct m; [|now apply expand_shape_ne in E1; [|lia]]. apply all_lt_0 in B. subst w. destruct (SN S); [reflexivity|discriminate].
Qed.
Lemma xexpandD S t w m : xfits S t -> is_zero0 (tv t) = false -> NoDup w -> Forall (fun k => k < m)%nat w -> length w = length (SD S) ->
  exists r, texpand t w m true = Ok r /\ xfits (expDS w m S) r /\ xm r = xm t /\ ym r = ym t /\
    tabeq (expDS w m S) (get (den r)) (expDT w (get (den t))).
Proof.
  intros X Z ND B L. pose proof (xf_wf _ _ X) as W. destruct (xfits_dims S t X) as (D1 & D2 & D3 & D4).
  destruct (texpand_dim_ok t w m W (xf_feat _ _ X) ND B) as (r & Er & Wr & Tr & De); auto; [congruence|].
  destruct (texpand_dim_inv t w m r Z Er) as (Rx & Ry & Mx & My).
  pose proof De as (E1 & E2 & E3 & E4 & _). cbn [dexpand_dim xs ys ns ds den] in E1, E2, E3, E4.
  assert (LN : length (sD t) = length w) by (rewrite (le1_len _ _ (xf_d _ _ X)); auto).
  assert (Xr : xfits (expDS w m S) r).
  { destruct X as [_ T M A B' C D F]. constructor; cbn [expDS SX SY SN SD]; auto.
    - unfold tmapped. rewrite Mx, My, Rx, Ry. exact M.
    - cbn [den xs]. rewrite E1. exact A.
    - cbn [den ys]. rewrite E2. exact B'.
    - now rewrite E3.
    - rewrite E4. clear - D LN L. unfold DR in *. destruct is_exact; [now rewrite D|]. apply le1_expand; auto.
    - intros f Hf. rewrite Mx, My in Hf. rewrite E3. now apply F. }
  exists r. split; [exact Er|]. split; [exact Xr|]. split; [auto|]. split; [auto|].
  intros x y n d Hi. rewrite (dsame_at (expDS w m S) _ _ x y n d De (wf_dpos r Wr) (xfits_dbelow _ _ Xr) Hi). now apply get_dexpand_dim.
Qed.
Theorem rexpandD nz Q S v F w m : NoDup w -> Forall (fun k => k < m)%nat w -> length w = length (SD S) ->
  rep nz Q S v F -> exists u, pexpand v w m true = Ok u /\ rep nz Q (expDS w m S) u (expDT w F).
Proof.
  intros ND B L.
  assert (AM : additive_map S (expDS w m S) (expDT w)).
  { split; [|split]; unfold expDT.
    + intros F0 G H x y n d Hi. apply H. now apply (at_expD w m S x y n d). + intros x y n d _. reflexivity. + intros F0 G x y n d _. reflexivity. }
  apply (rep_map (fun t => texpand t w m true) (fun v => pexpand v w m true)); auto.
  - intros t [X q] Z. destruct (xexpandD S t w m X Z ND B L) as (r & Er & Xr & Mx & My & V). exists r. split; [exact Er|]. split; [split; auto; now rewrite Mx, My|exact V].
  - intros t [X q] Z r Er. destruct (xexpandD S t w m X Z ND B L) as (r' & Er' & Xr & Mx & My & V). rewrite Er in Er'. injection Er' as <-.
    apply (zero0_shape S (expDS w m S) t r (expDT w)); auto; try apply X; try apply Xr.
    + intros E. apply (rank_groups r (xf_wf _ _ Xr)) in E as (E1 & E2 & E3 & E4). apply (rank_groups t (xf_wf _ _ X)).
      destruct (xfits_dims _ _ X) as (D1 & D2 & D3 & D4). destruct (xfits_dims _ _ Xr) as (R1 & R2 & R3 & R4). cbn [expDS SX SY SN SD] in *.
      destruct (den_x_len r (xf_wf _ _ Xr)) as [A1 A2]. destruct (den_x_len t (xf_wf _ _ X)) as [A3 A4]. rewrite E1 in A1. rewrite E2 in A2. cbn [length] in A1, A2.
      pose proof (wf_groups r (xf_wf _ _ Xr)) as G. pose proof (wf_groups t (xf_wf _ _ X)) as G'. cbn [den ns ds] in E3, E4.
      pose proof (g_n _ _ _ _ _ G) as G1. pose proof (g_d _ _ _ _ _ G) as G2. rewrite E3 in G1. rewrite E4 in G2. cbn [length] in G1, G2.
      assert (m = 0)%nat by (rewrite FuncLemmas.expand_shape_length in R4; lia). subst m. apply all_lt_0 in B. subst w. cbn [length] in L.
      repeat split; apply length_zero_iff_nil.
      * lia.
      * lia.
      * cbn [den ns]. rewrite (g_n _ _ _ _ _ G'). lia.
      * cbn [den ds]. rewrite (g_d _ _ _ _ _ G'). lia.
    + intros v0 x y n d _. reflexivity.
  - intros g es (Ne & A & NS & C1 & C2 & C3 & C4) E. cbn [pexpand]. unfold gexpand, gmap. rewrite E. cbn [rbind rmap]. unfold cnt, expDS. cbn [SX SY SN SD]. rewrite FuncLemmas.expand_shape_length, C1, C2, C3. reflexivity.
  - intros _ u Z. now apply texpand_zval.
  - unfold nonscalar, expDS. cbn [SN SD]. intros H E. apply app_eq_nil in E as [E1 E2]. apply H. rewrite E1. cbn [app].
    destruct m; [|now apply expand_shape_ne in E2; [|lia]]. apply all_lt_0 in B. subst w. destruct (SD S); [reflexivity|discriminate].
Qed.
End ex.
