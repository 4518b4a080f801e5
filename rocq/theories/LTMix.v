(** Sums over the dim axes, and arithmetic between arrays with and without them
    (maxlike.py:98-153). *)
From Verif Require Import Prelude DenseModel AnalyticSpec DenseProofs NDArray NDProofs TensorModel TensorSpec TensorSpecOps TensorLemmas TensorBasic TensorSum TensorSumMain TensorBin TensorArith TensorShape TensorExpand TensorGeneric TensorGSum TensorGUni TensorGMix TensorDotCore TensorDot TensorUfunc TensorUfuncP FuncModel FTModel FTRep FTRep2 FTBuilt LTModel LTPlain LTProd LTOuter LTCell.
From Coq Require Import Reals Lra.
Import List ListNotations.
Open Scope R_scope.
#[local] Existing Instance full_dims.

(** *** sum(False) *)
Lemma sD_den t : sD t = ds (den t). Proof. reflexivity. Qed.
Lemma get_dims a x y n : In n (indices (ns a)) \/ True ->
  get (dsum_axes a false true) x y n [] = Rsum (fun d => get a x y n d) (indices (ds a)).
Proof.
  intros _. unfold get. cbn [dsum_axes xs ys ns ds at_]. rewrite sumR_prod, Rsum_cons, Rsum_nil, Rplus_0_r.
  apply Rsum_ext. intros d Hd. now rewrite (clamp_in _ d).
Qed.
Lemma xsumdims X Y N D t : xfits (SH X Y N D) t ->
  exists r, tsum t SVFalse true = Ok r /\ xfits (SH X Y N []) r /\
    forall x y n d, at_shape (SH X Y N []) x y n d -> get (den r) x y n d = Rsum (fun d => get (den t) x y n d) (indices D).
Proof.
  intros Xt. pose proof Xt as [W T M EX EY LN LD Fu]. cbn [SX SY SN SD] in *.
  destruct (tsum_dims_ok t W T) as (r & Er & Wr & Tr & De). exists r. split; [exact Er|].
  assert (Mp : xm r = xm t /\ ym r = ym t /\ xd r = xd t /\ yd r = yd t).
  { unfold tsum in Er. destruct (np_sum _ _); [|discriminate]. cbn [rbind] in Er. tinv Er. auto. }
  destruct Mp as (Mx & My & Ex & Ey). pose proof De as (E1 & E2 & E3 & E4 & _). cbn [dsum_axes xs ys ns ds] in E1, E2, E3, E4.
  assert (Xr : xfits (SH X Y N []) r).
  { constructor; cbn [SX SY SN SD]; auto.
    - unfold tmapped. rewrite Mx, My, Ex, Ey. exact M.
    - rewrite E1. exact EX.
    - rewrite E2. exact EY.
    - change (sN r) with (ns (den r)). rewrite E3. exact LN.
    - rewrite Mx, My. change (sN r) with (ns (den r)). rewrite E3. exact Fu. }
  split; [exact Xr|]. intros x y n d Hi. rewrite (dsame_at (SH X Y N []) _ _ x y n d De); auto; [|now apply wf_dpos|now apply xfits_dbelow].
  assert (d = []) by (destruct Hi as (_ & _ & _ & [<-|[]]); reflexivity). subst d.
  rewrite get_dims by auto. assert (ED : ds (den t) = D) by exact LD. now rewrite ED.
Qed.
Lemma zval_sumdims v : zval v -> exists w, sumdims v = Ok w /\ zval w.
Proof.
  intros Z. destruct (zval_plt v Z) as (t & -> & P & E & V). pose proof Z as (t' & Et & _ & _ & X & Y & N & D & Mx & My). injection Et as <-.
  destruct (tsum_dims_ok t (proj1 P)) as (r & Er & Wr & Tr & De). { split; rewrite ?Mx, ?My; constructor. }
  exists (PT r). cbn [sumdims]. rewrite Er. split; [reflexivity|].
  assert (Mp : xm r = xm t /\ ym r = ym t /\ xd r = xd t /\ yd r = yd t /\ dm r = 0%nat).
  { unfold tsum in Er. destruct (np_sum _ _); [|discriminate]. cbn [rbind] in Er. tinv Er. auto. }
  destruct Mp as (Rx & Ry & Rxd & Ryd & Rdm). pose proof (proj1 (rank_groups t (proj1 P)) E) as (X1 & X2 & X3 & X4). pose proof De as (E1 & E2 & E3 & E4 & Vr). cbn [dsum_axes xs ys ns ds] in E1, E2, E3, E4.
  assert (Sr : shp (tv r) = []) by (apply (rank_groups r Wr); repeat split; congruence).
  pose proof (wf_groups r Wr) as G. pose proof (g_n _ _ _ _ _ G) as Ln. change (sN r) with (ns (den r)) in Ln. rewrite E3, X3 in Ln.
  exists r. rewrite Rx, Ry, Rxd, Ryd. repeat split; auto.
  pose proof (rank0_get r [] [] [] [] Wr Sr) as Q. rewrite <- Q.
  assert (DB : dbelow (SH [] [] [] []) (den r)) by (constructor; left; congruence).
  rewrite (dsame_at (SH [] [] [] []) _ _ [] [] [] [] De); [|now apply wf_dpos|exact DB|repeat split; now left].
  rewrite get_dims by auto. rewrite X4. cbn [indices]. rewrite Rsum_cons, Rsum_nil, rank0_get; [rewrite V; ring|apply P|exact E].
Qed.
Lemma Rsum_swap_items (es : list item) x y n l : Rsum (fun e => Rsum (fun d => get (iden e) x y n d) l) es = Rsum (fun d => gsum_at es x y n d) l.
Proof. unfold gsum_at. apply Rsum_swap. Qed.
Theorem sumdims_rep nz X Y N D v F : posl X -> posl Y -> posl N -> posl D -> N <> [] -> rep nz anyQ (SH X Y N D) v F ->
  exists w, sumdims v = Ok w /\ rep nz anyQ (SH X Y N []) w (fun x y n _ => Rsum (fun d => F x y n d) (indices D)).
Proof.
  intros PX PY PN PD NN [(-> & Z & T)|(Pv & T)].
  - destruct (zval_sumdims v Z) as (w & Ew & Zw). exists w. split; [exact Ew|]. left. split; [reflexivity|]. split; [exact Zw|].
    intros x y n d Hi. apply Rsum_zero. intros d' Hd. apply T. destruct Hi as (H1 & H2 & H3 & _). repeat split; auto.
  - assert (NS' : nonscalar (SH X Y N [])) by (unfold nonscalar; cbn [SN SD]; rewrite app_nil_r; exact NN).
    assert (TT : forall F', tabeq (SH X Y N D) F' F -> tabeq (SH X Y N []) (fun x y n _ => Rsum (fun d => F' x y n d) (indices D)) (fun x y n _ => Rsum (fun d => F x y n d) (indices D))).
    { intros F' HF x y n d (H1 & H2 & H3 & _). apply Rsum_ext. intros d' Hd. apply HF. repeat split; auto. }
    destruct v as [c|a|t|g]; [destruct Pv|destruct Pv| |]; cbn [pf] in Pv.
    + destruct Pv as [[Xt _] _]. destruct (xsumdims X Y N D t Xt) as (r & Er & Xr & Vr). exists (PT r). cbn [sumdims]. rewrite Er. split; [reflexivity|]. right. split.
      * split; [split; [exact Xr|exact I]|]. apply rank_not_zero. eapply xfits_rank; eauto.
      * intros x y n d Hi. cbn [vden]. rewrite Vr by auto. exact (TT _ T x y n d Hi).
    + destruct Pv as (NE & It & NS & G1 & G2 & G3 & G4). cbn [SX SY SN SD] in *.
      assert (Sh : rmapM (on_item (fun t => rmapM (fun k => match nth_error (shp (tv t)) (xd t + yd t + k) with Some s => Ok s | None => Raise IndexError end) (seq (gn g) (gd g)))) (els g) = Ok (map (fun _ => D) (els g))).
      { apply rmapM_map. intros e He. destruct (proj1 (Forall_forall _ _) It e He) as (t & -> & Xt & _). cbn [on_item].
        pose proof (wf_groups t (xf_wf _ _ Xt)) as [GS Lx Ly Ln Ld]. pose proof (le1_len _ _ (xf_n _ _ Xt)) as LN. assert (ED : sD t = D) by exact (xf_dr _ _ Xt). cbn [SN] in LN.
        rewrite seq_pick by (rewrite GS, !app_length; rewrite ED; lia). f_equal. rewrite GS.
        replace (xd t + yd t + gn g)%nat with (length (sX t ++ sY t ++ sN t)) by (rewrite !app_length; lia).
        replace (sX t ++ sY t ++ sN t ++ sD t) with ((sX t ++ sY t ++ sN t) ++ sD t) by (now rewrite <- !app_assoc).
        rewrite skipn_app, skipn_all, Nat.sub_diag. cbn [skipn app]. rewrite ED, G4. apply firstn_all. }
      assert (Fz : fold_left (fun a s => map (fun ab => Nat.max (fst ab) (snd ab)) (combine a s)) (map (fun _ => D) (els g)) (repeat 1%nat (length D)) = D).
      { rewrite fold_zip; [|apply Forall_forall; intros l Hl; apply in_map_iff in Hl; destruct Hl as (? & <- & _); auto|destruct (els g); [congruence|discriminate]].
        apply (bmaxs_same D (els g) NE (fun _ => D)). auto. }
      assert (It' : exists es', rmapM (fun es => let '(e, sh) := es in on_item (fun t => let! u := tsum t SVFalse true in let! w := tbin_num u (INR (prodn D) / INR (prodn sh)) MUL in Ok (IT w)) e) (combine (els g) (map (fun _ => D) (els g))) = Ok es' /\
        Forall (ifit anyQ (SH X Y N [])) es' /\ length es' = length (els g) /\ forall x y n d, at_shape (SH X Y N []) x y n d -> gsum_at es' x y n d = Rsum (fun d => gsum_at (els g) x y n d) (indices D)).
      { clear NE Sh Fz T TT. revert It. generalize (els g) as es. induction es as [|e es IH]; intros It; cbn [map combine rmapM].
        - exists []. split; [reflexivity|]. split; [constructor|]. split; [reflexivity|]. intros x y n d _. unfold gsum_at. rewrite Rsum_nil. symmetry. apply Rsum_zero. intros; apply Rsum_nil.
        - inversion It as [|? ? (t & -> & Xt & _) It']; subst. destruct (IH It') as (es' & Ee & Fe & Le & Ve). destruct (xsumdims X Y N D t Xt) as (r & Er & Xr & Vr).
          cbn [on_item]. rewrite Er. cbn [rbind]. assert (Fac : INR (prodn D) / INR (prodn D) = 1) by (apply Rinv_r, not_0_INR; pose proof (prodn_pos D PD); lia).
          rewrite Fac. assert (T1 : tbin_num r 1 MUL = Ok r). { unfold tbin_num. destruct (Req_EM_T 1 0); [lra|]. destruct (Req_EM_T 1 1); [reflexivity|lra]. }
          rewrite T1. cbn [rbind]. rewrite Ee. cbn [rbind]. eexists. split; [reflexivity|]. split; [constructor; [exists r; split; [reflexivity|split; [exact Xr|exact I]]|exact Fe]|]. split; [cbn [length]; lia|].
          intros x y n d Hi. unfold gsum_at at 1. rewrite Rsum_cons. fold (gsum_at es' x y n d). rewrite Ve by auto. cbn [iden]. rewrite Vr by auto. rewrite <- Rsum_plus. apply Rsum_ext. intros d' _. unfold gsum_at. rewrite Rsum_cons. reflexivity. }
      destruct It' as (es' & Ee & Fe & Le & Ve).
      exists (PG (mkG (gx g) (gy g) (gn g) 0 es')). split.
      * cbn [sumdims]. unfold gsum. cbn [negb andb app length]. rewrite Sh. cbn [rbind]. rewrite seq_length, G4, Fz, Ee. reflexivity.
      * right. split.
        -- cbn [pf els gx gy gn gd SX SY SN SD]. split; [destruct es', (els g); try discriminate; congruence|]. repeat split; auto.
        -- intros x y n d Hi. cbn [vden]. rewrite get_gden. cbn [els]. rewrite Ve by auto. rewrite <- (TT _ T x y n d Hi). apply Rsum_ext. intros d' _. cbn [vden]. now rewrite get_gden.
Qed.

(** *** values some of whose parts have no dim axes *)
Record mv (S : shape4) (v : pval) (F : table) : Prop := mkMv {
  mv_fits : vfits S v; mv_md : vmd (upto (length (SD S))) (length (SN S)) v;
  mv_tab : tabeq S (get (vden v)) F;
  mv_x : xs (vden v) = SX S; mv_y : ys (vden v) = SY S }.
Lemma wv_mv bn S v F : wv true true bn S v F -> mv S v F.
Proof. intros [A B C D E _]. constructor; auto. now apply vnd_upto. Qed.
Lemma fits_dims X Y N D t : fits (SH X Y N []) t -> fits (SH X Y N D) t.
Proof. intros [A B C E F G H I]. constructor; auto. cbn [SD] in *. left. destruct H as [H|H]; [exact H|]. now inversion H. Qed.
Lemma vfits_dims X Y N D v : vfits (SH X Y N []) v -> vfits (SH X Y N D) v.
Proof.
  destruct v as [c|a|t|g]; cbn [vfits]; auto; [apply fits_dims|]. unfold gfits. intros H. eapply Forall_impl; [|exact H]. intros e (t & -> & Ft). exists t. split; [reflexivity|now apply fits_dims].
Qed.
Lemma get_nodim a x y n d : ds a = [] -> get a x y n d = get a x y n [].
Proof. intros E. unfold get. rewrite E. now destruct d. Qed.
(** a value without dim axes, seen as constant along them *)
Lemma wv_nodim bn X Y N D v F : posl X -> posl Y -> posl N -> wv true true bn (SH X Y N []) v F -> mv (SH X Y N D) v (fun x y n _ => F x y n []).
Proof.
  intros PX PY PN [A B C E1 E2 _]. cbn [SX SY SN SD sizes length] in *. assert (PS : spos (SH X Y N [])) by (repeat split; auto; constructor).
  constructor; cbn [SX SY SN SD]; auto.
  - now apply vfits_dims.
  - apply vnd_upto in B. destruct v as [c|a|t|g]; cbn [vmd] in *; auto.
    + destruct B as [B1 B2]. split; [exact B1|]. unfold upto in *. lia.
    + destruct B as (B1 & B2 & B3 & B4). split; [exact B1|]. split; [unfold upto in *; lia|]. split; [|exact B4]. eapply Forall_impl; [|exact B3]. intros e He t Et. destruct (He t Et) as [Q1 Q2]. split; [exact Q1|unfold upto in *; lia].
  - intros x y n d (H1 & H2 & H3 & H4). destruct (vnd_lens (SH X Y N []) v PS A B) as [_ L]. cbn [SD] in L.
    assert (ED : ds (vden v) = []) by (now inversion L). rewrite get_nodim by auto. apply C. repeat split; auto. now left.
Qed.
Lemma mv_sub S u v F G : spos S -> mv S u F -> mv S v G -> exists w, py OSub u v = Ok w /\ mv S w (fun x y n d => F x y n d - G x y n d).
Proof.
  intros PS [Fu Nu Tu Xu Yu] [Fv Nv Tv Xv Yv].
  destruct (padd_ok S u v SUB PS Fu Fv (or_intror eq_refl)) as (w & Ew & Fw & De). exists w.
  split; [rewrite py_pbin; auto; destruct u as [c|a|s|g]; [destruct Fu|destruct Fu|left; eauto|right; eauto]|].
  pose proof (pbin_md _ (upto_max (length (SD S))) S _ u v SUB w PS Fu Fv Nu Nv (or_intror eq_refl) Ew) as Nw.
  pose proof De as (E1 & E2 & _). cbn [dbin xs ys] in E1, E2. destruct (vden_below S w PS Fw) as [Bw Pw].
  constructor; auto.
  - intros x y n d Hi. rewrite (dsame_at S _ _ x y n d De); auto. rewrite get_dbin, Tu, Tv; auto.
  - rewrite E1, Xu, Xv. apply bmax_idem.
  - rewrite E2, Yu, Yv. apply bmax_idem.
Qed.
Lemma below_bmax_full a b : posl b -> below a b -> bmax a b = b /\ bmax b a = b.
Proof. intros P H. apply bmax_full; auto. Qed.
(** an array with all axes times such a value *)
Lemma mv_lmul S u v F G : spos S -> nonscalar S -> mv S u F -> pl 2 (SN S, SD S) v G ->
  exists w, py OMul v u = Ok w /\ wv true true true S w (fun x y n d => G n d * F x y n d).
Proof.
  intros PS NS [Fv Nv Tv Xv Yv] (t & -> & P & L & V). destruct (plt_fits S t 1 NS P L) as [Ft Nt].
  destruct (plt_facts t P) as (_ & _ & Mx & My & _ & EX & EY & _). pose proof PS as (PX & PY & PN & PD). destruct (vden_below S u PS Fv) as [[_ _ Bn Bd] _]. destruct L as [Ln Ld]. cbn [fst snd] in Ln, Ld. destruct P as (Wt & Xt & Yt).
  assert (Sizes : forall w, shape_of (vden w) = shmax (shape_of (vden u)) (shape_of (den t)) -> xs (vden w) = SX S /\ ys (vden w) = SY S /\ ns (vden w) = SN S /\ ds (vden w) = SD S).
  { intros w E. pose proof (f_equal SX E : xs (vden w) = bmax (xs (vden u)) (xs (den t))) as E1. pose proof (f_equal SY E : ys (vden w) = bmax (ys (vden u)) (ys (den t))) as E2.
    pose proof (f_equal SN E : ns (vden w) = bmax (ns (vden u)) (ns (den t))) as E3. pose proof (f_equal SD E : ds (vden w) = bmax (ds (vden u)) (ds (den t))) as E4.
    rewrite E1, E2, E3, E4, Xt, Yt, Ln, Ld, !bmax_nil_r. split; [exact Xv|]. split; [exact Yv|]. split; now apply below_bmax_full. }
  destruct u as [c|a|s|g]; [destruct Fv|destruct Fv| |].
  - destruct (tprod S t s MUL PS (or_introl eq_refl) Ft Fv) as (r & Er & Fr & De & _); [right; right; auto|right; right; auto|now left|].
    exists (PT r). split; [exact Er|]. cbn [op_fun] in De.
    destruct (Sizes (PT r)) as (S1 & S2 & S3 & S4'); [cbn [vden]; rewrite (shape_eq _ _ De), shape_dbin; apply shmax_sym|].
    constructor; auto.
    + destruct Nv as [N1 N2]. unfold upto in N2. destruct Nt as [N3 N4]. destruct De as (_ & _ & En & Ed & _). destruct (fits_lens S s Fv) as (_ & _ & L1 & L2), (fits_lens S t Ft) as (_ & _ & L3 & L4), (fits_lens S r Fr) as (_ & _ & L5 & L6).
      split; [rewrite <- L5, En|rewrite <- L6, Ed]; cbn [dbin ns ds]; rewrite bmax_len; lia.
    + intros x y n d Hi. cbn [vden]. rewrite (dsame_at S _ _ x y n d De); auto; [|apply wf_dpos, Fr|now apply fits_dbelow]. rewrite get_dbin, (at_plain t) by exact (conj Wt (conj Xt Yt)).
      rewrite V by apply Hi. specialize (Tv x y n d Hi). cbn [vden] in Tv. now rewrite Tv.
  - destruct (vprod_r S (PG g) t MUL _ _ PS (or_introl eq_refl) Fv Nv Ft Nt) as (w & Ew & Fw & Nw & Sw & Tw).
    { intros s _. split; [right; left; auto|]. split; [right; left; auto|now left]. }
    exists w. split; [cbn [py tbin direct]; exact Ew|]. destruct (Sizes w Sw) as (S1 & S2 & S3 & S4'). constructor; auto.
    intros x y n d Hi. rewrite Tw by auto. cbn [op_fun]. rewrite (at_plain t) by exact (conj Wt (conj Xt Yt)). rewrite Tv by auto. rewrite V by apply Hi. ring.
Qed.
