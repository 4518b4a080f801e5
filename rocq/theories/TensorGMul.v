(** Products, quotients and scalars of a GenericTensor (tensor/tensor.py 356-424):
    multiplication and division act on every element, a number added is absorbed by
    the first element, and a product of two formal sums runs over all pairs. *)
From Verif Require Import Prelude DenseModel AnalyticSpec DenseProofs NDArray NDProofs TensorModel TensorSpec TensorSpecOps TensorLemmas TensorBasic TensorSum TensorSumMain TensorBin TensorArith TensorShape TensorExpand TensorMore TensorGeneric TensorGSum FTRep FTRep2 FTWrap LTProd TensorGOps FTModel.
From Verif Require FuncLemmas.
From Coq Require Import Reals Lra.
Import List ListNotations.
Open Scope R_scope.

(** t can be multiplied (divided) by o: per group the diagonals agree or one side has no axes *)
Definition pairs (op : top) (o t : tensor) : Prop :=
  same_or_absent (xm t) (xm o) (sX t) (sX o) /\ same_or_absent (ym t) (ym o) (sY t) (sY o) /\ divisible t o op.

Lemma gmul_rel (f : dt -> dt) S (P : tensor -> Prop) o op :
  (forall t, fits S t -> P t -> exists r, tbin1 t o op = Ok (PT r) /\ fits S r /\ dsame (den r) (f (den t))) ->
  forall es, allfit S es -> Forall (fun e => exists t, e = IT t /\ P t) es ->
  exists es', rmapM (fun e => let! v := item_bin e o op in as_item v) es = Ok es' /\ Forall2 (relel f S S P) es es'.
Proof.
  intros H es. induction es as [|e es IH]; intros A B; cbn [rmapM].
  - exists []. split; [reflexivity|constructor].
  - inversion A as [|? ? (t & -> & Ft) A']; inversion B as [|? ? (t' & Et & Pt) B']; subst. injection Et as <-.
    destruct (H t Ft Pt) as (r & Er & Fr & De). cbn [item_bin]. rewrite Er. cbn [rbind as_item].
    destruct (IH A' B') as (es' & Ee & Re). rewrite Ee. cbn [rbind]. exists (IT r :: es'). split; [reflexivity|].
    constructor; [|exact Re]. exists t, r. repeat (split; [solve [auto]|]). exact De.
Qed.
Lemma shmax_idem4 a : shmax a a = a.
Proof. apply shmax_idem. Qed.
Lemma rel_shape_bin opf o S S' P es es' : Forall2 (relel (fun a => dbin opf a (den o)) S S' P) es es' -> es <> [] ->
  gshape es' = shmax (gshape es) (shape_of (den o)).
Proof.
  induction 1 as [|e e' es es' (t & r & -> & -> & _ & _ & _ & De) HF IH]; [easy|]. intros _. rewrite !gshape_cons. cbn [iden].
  rewrite (shape_eq _ _ De), shape_dbin. destruct es as [|e2 es].
  - inversion HF; subst. change (gshape []) with (SH [] [] [] []). now rewrite !shmax_nil.
  - rewrite IH by discriminate. set (A := shape_of (den t)). set (B := shape_of (den o)). set (C := gshape (e2 :: es)).
    rewrite (shmax_sym C B), <- shmax_assoc, (shmax_assoc B B C), shmax_idem, (shmax_sym B C), shmax_assoc. reflexivity.
Qed.
Lemma rel_shape_same f S S' P es es' : Forall2 (relel f S S' P) es es' -> (forall a, shape_of (f a) = shape_of a) ->
  gshape es' = gshape es.
Proof.
  intros H Hf. induction H as [|e e' es es' (t & r & -> & -> & _ & _ & _ & De) HF IH]; [reflexivity|]. rewrite !gshape_cons. cbn [iden].
  now rewrite (shape_eq _ _ De), Hf, IH.
Qed.

Theorem gprod_ok S g o op : spos S -> op = MUL \/ op = DIV -> gfits S g -> els g <> [] -> fits S o -> elements (pairs op o) g ->
  exists g', gbin1 g (IT o) op = Ok g' /\ gfits S g' /\ dsame (gden g') (dbin (op_fun op) (gden g) (den o)) /\
    gx g' = Nat.max (gx g) (xd o) /\ gy g' = Nat.max (gy g) (yd o) /\ gn g' = Nat.max (gn g) (nn o) /\ gd g' = Nat.max (gd g) (dm o) /\ length (els g') = length (els g).
Proof.
  intros PS Hop Fg Ne Fo El. set (f := fun a => dbin (op_fun op) a (den o)).
  destruct (gmul_rel f S (pairs op o) (IT o) op) with (es := els g) as (es' & E & R); auto.
  { intros t Ft (P1 & P2 & P3). destruct (tprod S t o op PS Hop Ft Fo P1 P2 P3) as (r & Er & Fr & De & _). exists r. auto. }
  exists (mkG (Nat.max (gx g) (xd o)) (Nat.max (gy g) (yd o)) (Nat.max (gn g) (nn o)) (Nat.max (gd g) (dm o)) es').
  split; [unfold gbin1; destruct Hop as [-> | ->]; rewrite E; reflexivity|].
  destruct (gre_same f S S (pairs op o) g (mkG (Nat.max (gx g) (xd o)) (Nat.max (gy g) (yd o)) (Nat.max (gn g) (nn o)) (Nat.max (gd g) (dm o)) es') PS R) as (G1 & G2).
  - unfold f. rewrite shape_dbin, shape_gden. cbn [els]. now rewrite (rel_shape_bin _ _ _ _ _ _ _ R Ne).
  - intros x y n d _. unfold f. rewrite get_dbin, get_gden. unfold gsum_at.
    rewrite (Rsum_ext (fun e => get (dbin (op_fun op) (iden e) (den o)) x y n d) (fun e => op_fun op (get (iden e) x y n d) (get (den o) x y n d))) by (intros; apply get_dbin).
    destruct Hop as [-> | ->]; cbn [op_fun]; [now rewrite Rsum_scal_r|]. unfold Rdiv. now rewrite Rsum_scal_r.
  - split; [exact G1|]. split; [exact G2|]. do 4 (split; [reflexivity|]). cbn [els]. clear -R. induction R; cbn [length]; congruence.
Qed.

(** *** numbers *)
Lemma fits_nomap S t r f : fits S t -> wf r -> dsame (den r) (dmap f (den t)) -> xm r = [] -> ym r = [] -> fits S r.
Proof.
  intros F W De Mx My. pose proof De as (E1 & E2 & E3 & E4 & _). cbn [dmap xs ys ns ds] in E1, E2, E3, E4. constructor; auto.
  - split; rewrite ?Mx, ?My; constructor.
  - apply (rank_of S t r (dmap f (den t)) F W De). cbn [dmap xs ys ns ds]. auto.
  - rewrite E1. apply F.
  - rewrite E2. apply F.
  - change (sN r) with (ns (den r)). rewrite E3. apply F.
  - change (sD r) with (ds (den r)). rewrite E4. apply F.
  - intros k. rewrite Mx, My. cbn. tauto.
Qed.
Lemma fits_samemap S t r f : fits S t -> wf r -> dsame (den r) (dmap f (den t)) -> xm r = xm t -> ym r = ym t -> fits S r.
Proof.
  intros F W De Mx My. pose proof De as (E1 & E2 & E3 & E4 & _). cbn [dmap xs ys ns ds] in E1, E2, E3, E4.
  change (ns (den r)) with (sN r) in E3. change (ns (den t)) with (sN t) in E3. change (ds (den r)) with (sD r) in E4. change (ds (den t)) with (sD t) in E4.
  assert (NN : nn r = nn t) by now rewrite <- (g_n _ _ _ _ _ (wf_groups r W)), <- (g_n _ _ _ _ _ (wf_groups t (ft_wf _ _ F))), E3.
  constructor; auto.
  - destruct (ft_feat _ _ F). split; rewrite ?Mx, ?My, NN; assumption.
  - apply (rank_of S t r (dmap f (den t)) F W De). cbn [dmap xs ys ns ds]. auto.
  - rewrite E1. apply F.
  - rewrite E2. apply F.
  - rewrite E3. apply F.
  - rewrite E4. apply F.
  - intros k. rewrite Mx, My, E3. apply F.
Qed.
Lemma fnum_add S t c op : fits S t -> op = ADD \/ op = SUB ->
  exists r, tbin_num t c op = Ok r /\ fits S r /\ dsame (den r) (dmap (fun v => op_fun op v c) (den t)).
Proof.
  intros F Hop. assert (A : additive op = true) by (destruct Hop as [-> | ->]; reflexivity).
  destruct (tbin_add_num t c op (ft_wf _ _ F) A) as (r & Er & Wr & De). exists r. split; [exact Er|]. split; [|exact De].
  unfold tbin_num in Er. destruct (Req_EM_T c 0) as [-> | N0].
  - assert (r = t) as -> by (destruct Hop as [-> | ->]; now injection Er). exact F.
  - assert (E' : (let! a := toarray t in Tensor (np_map (fun v => op_fun op v c) a) (xd t) (yd t) (dm t) [] []) = Ok r).
    { rewrite A in Er. destruct Hop as [-> | ->]; destruct (Req_EM_T c 1); exact Er. }
    destruct (bind_inv _ _ _ E') as (a & _ & Et). apply Tensor_inv in Et as (Mx & My & _).
    exact (fits_nomap S t r _ F Wr De Mx My).
Qed.
Lemma fnum_mul S t c op : fits S t -> op = MUL \/ op = DIV -> c <> 0 ->
  exists r, tbin_num t c op = Ok r /\ fits S r /\ dsame (den r) (dmap (fun v => op_fun op v c) (den t)).
Proof.
  intros F Hop Hc. destruct (tbin_mul_num t c op (ft_wf _ _ F) Hop Hc) as (r & Er & Wr & De). exists r. split; [exact Er|]. split; [|exact De].
  unfold tbin_num in Er. destruct (Req_EM_T c 0) as [E | N0]; [contradiction|].
  assert (M : xm r = xm t /\ ym r = ym t).
  { destruct Hop as [-> | ->]; (destruct (Req_EM_T c 1); [injection Er as <-; auto|]); cbn [additive] in Er; apply Tensor_inv in Er; tauto. }
  destruct M as [Mx My]. exact (fits_samemap S t r _ F Wr De Mx My).
Qed.
Lemma shape_dmap f a : shape_of (dmap f a) = shape_of a.
Proof. reflexivity. Qed.
Theorem gprod_num S g c op : spos S -> op = MUL \/ op = DIV -> c <> 0 -> gfits S g ->
  exists g', gbin1 g (INum c) op = Ok g' /\ gfits S g' /\ dsame (gden g') (dmap (fun v => op_fun op v c) (gden g)) /\
    gx g' = gx g /\ gy g' = gy g /\ gn g' = gn g /\ gd g' = gd g.
Proof.
  intros PS Hop Hc Fg. set (f := dmap (fun v => op_fun op v c)).
  destruct (gmul_rel f S (fun _ => True) (INum c) op) with (es := els g) as (es' & E & R); auto.
  { intros t Ft _. destruct (fnum_mul S t c op Ft Hop Hc) as (r & Er & Fr & De). exists r. cbn [tbin1]. rewrite Er. auto. }
  { eapply Forall_impl; [|exact Fg]. intros e (t & -> & _). eauto. }
  exists (mkG (gx g) (gy g) (gn g) (gd g) es').
  split; [unfold gbin1; destruct Hop as [-> | ->]; rewrite E; reflexivity|].
  destruct (gre_same f S S (fun _ => True) g (mkG (gx g) (gy g) (gn g) (gd g) es') PS R) as (G1 & G2).
  - unfold f. rewrite shape_dmap, shape_gden. cbn [els]. symmetry. apply (rel_shape_same _ _ _ _ _ _ R). reflexivity.
  - intros x y n d _. unfold f. rewrite get_dmap, get_gden. unfold gsum_at.
    rewrite (Rsum_ext (fun e => get (dmap (fun v => op_fun op v c) (iden e)) x y n d) (fun e => op_fun op (get (iden e) x y n d) c)) by (intros; apply get_dmap).
    destruct Hop as [-> | ->]; cbn [op_fun]; [now rewrite Rsum_scal_r|]. unfold Rdiv. now rewrite Rsum_scal_r.
  - split; [exact G1|]. split; [exact G2|]. auto.
Qed.
Theorem gadd_num S g c op : spos S -> op = ADD \/ op = SUB -> gfits S g -> els g <> [] ->
  exists g', gbin1 g (INum c) op = Ok g' /\ gfits S g' /\ dsame (gden g') (dmap (fun v => op_fun op v c) (gden g)) /\
    gx g' = gx g /\ gy g' = gy g /\ gn g' = gn g /\ gd g' = gd g.
Proof.
  intros PS Hop Fg Ne. destruct g as [x y n d es]. cbn [els gx gy gn gd] in *. destruct es as [|e es]; [congruence|].
  pose proof Fg as Fg'. unfold gfits in Fg'. cbn [els] in Fg'. inversion Fg' as [|? ? (t & -> & Ft) Fes]; subst.
  destruct (fnum_add S t c op Ft Hop) as (r & Er & Fr & De). exists (mkG x y n d (IT r :: es)).
  split. { unfold gbin1. cbn [els gx gy gn gd]. destruct Hop as [-> | ->]; cbn [absorb item_bin tbin1]; rewrite Er; reflexivity. }
  assert (A' : allfit S (IT r :: es)) by (constructor; eauto).
  split; [exact A'|]. split; [|auto]. apply dsame_intro.
  - rewrite shape_dmap, !shape_gden. cbn [els]. rewrite !gshape_cons. cbn [iden]. now rewrite (shape_eq _ _ De).
  - intros x0 y0 n0 d0 Hi. rewrite get_dmap, !get_gden. rewrite shape_gden in Hi. cbn [els] in *. unfold gsum_at. rewrite !Rsum_cons.
    pose proof (fits_shrink S _ r PS A' (or_introl eq_refl)) as Fr'. cbn [iden].
    rewrite (dsame_at (gshape (IT r :: es)) _ _ x0 y0 n0 d0 De); auto; [|apply wf_dpos, Fr|now apply fits_dbelow].
    rewrite get_dmap. destruct Hop as [-> | ->]; cbn [op_fun]; ring.
Qed.
Theorem grsub_num S g c : spos S -> gfits S g -> els g <> [] ->
  exists g', gbin1 g (INum c) RSUB = Ok g' /\ gfits S g' /\ dsame (gden g') (dmap (fun v => c - v) (gden g)) /\
    gx g' = gx g /\ gy g' = gy g /\ gn g' = gn g /\ gd g' = gd g.
Proof.
  intros PS Fg Ne. destruct (gneg_ok S g PS Fg) as (gm & Em & Fm & Dm). unfold gneg in Em. destruct (bind_inv _ _ _ Em) as (es & Ee & Eg). injection Eg as <-.
  destruct (gadd_num S (mkG (gx g) (gy g) (gn g) (gd g) es) c ADD PS (or_introl eq_refl) Fm) as (g' & E1 & F1 & D1 & M).
  { cbn [els]. destruct (els g); [congruence|]. cbn [rmapM] in Ee. destruct (bind_inv _ _ _ Ee) as (? & _ & E2). destruct (bind_inv _ _ _ E2) as (? & _ & E3). injection E3 as <-. discriminate. }
  exists g'. split. { unfold gbin1 in E1 |- *. cbn [els gx gy gn gd] in E1. rewrite Ee. exact E1. }
  split; [exact F1|]. split; [|exact M]. eapply dsame_trans; [exact D1|].
  destruct Dm as (E1' & E2' & E3' & E4' & V). unfold dsame. cbn [dmap dneg xs ys ns ds at_] in *. do 4 (split; [assumption|]).
  intros x y n d Hx Hy Hn Hd. cbn [op_fun]. rewrite V by assumption. cbn. ring.
Qed.
Theorem gmul_zero g : Forall (fun e => exists t, e = IT t) (els g) ->
  gbin1 g (INum 0) MUL = Ok (mkG (gx g) (gy g) (gn g) (gd g) (map (fun _ => IT (tnum 0)) (els g))) /\
  dsame (gden (mkG (gx g) (gy g) (gn g) (gd g) (map (fun _ => IT (tnum 0)) (els g)))) dzero.
Proof.
  intros A. split.
  - unfold gbin1. assert (E : rmapM (fun e => let! v := item_bin e (INum 0) MUL in as_item v) (els g) = Ok (map (fun _ => IT (tnum 0)) (els g))).
    { induction A as [|e es (t & ->) _ IH]; [reflexivity|]. cbn [rmapM item_bin tbin1]. rewrite tbin_mul_zero. cbn [rbind as_item]. rewrite IH. reflexivity. }
    rewrite E. reflexivity.
  - set (g' := mkG _ _ _ _ _). assert (Sh : shape_of (gden g') = SH [] [] [] []).
    { rewrite shape_gden. unfold g'; cbn [els]. clear A. induction (els g) as [|e es IH]; [reflexivity|]. cbn [map]. rewrite gshape_cons, IH. reflexivity. }
    apply dsame_intro; [exact Sh|]. intros x y n d _. rewrite get_gden, get_zero. unfold gsum_at, g'. cbn [els]. rewrite Rsum_map. apply Rsum_zero. intros e _. cbn [iden].
    unfold get, den, tnum. cbn. ring.
Qed.
Theorem gdiv_zero g e t es : els g = e :: es -> e = IT t -> gbin1 g (INum 0) DIV = Raise ZeroDivisionError.
Proof. intros E ->. unfold gbin1. rewrite E. cbn [rmapM item_bin tbin1]. rewrite tbin_div_zero. reflexivity. Qed.
Theorem grdiv_raises g o : gbin g o RDIV = Raise InvalidOperation.
Proof. destruct o; reflexivity. Qed.

(** *** products of two formal sums *)
Lemma gmulg_fold S g : spos S -> gfits S g -> els g <> [] -> forall h, allfit S h ->
  Forall (fun e => exists o, e = IT o /\ elements (pairs MUL o) g) h -> forall acc, gfits S acc ->
  exists r, ofold (fun acc e => let! ge := gbin1 g e MUL in ofold (fun acc e' => gbin1 acc e' ADD) (els ge) acc) h acc = Ok r /\ gfits S r /\
    shape_of (gden r) = shmax (shape_of (gden acc)) (match h with [] => SH [] [] [] [] | _ => shmax (gshape (els g)) (gshape h) end) /\
    forall x y n d, at_shape S x y n d -> get (gden r) x y n d = get (gden acc) x y n d + get (gden g) x y n d * gsum_at h x y n d.
Proof.
  intros PS Fg Ne h. induction h as [|e h IH]; intros Ah Ph acc Fa; cbn [ofold].
  - exists acc. split; [reflexivity|]. split; [exact Fa|]. split; [now rewrite shmax_nil|]. intros x y n d _. unfold gsum_at. rewrite Rsum_nil. ring.
  - inversion Ah as [|? ? (t & -> & Ft) Ah']; inversion Ph as [|? ? (o & Eo & Po) Ph']; subst. injection Eo as <-.
    destruct (gprod_ok S g t MUL PS (or_introl eq_refl) Fg Ne Ft Po) as (ge & E1 & F1 & D1 & _). rewrite E1. cbn [rbind].
    destruct (gadd_fold S ADD (els ge) PS (or_introl eq_refl) F1 acc Fa) as (a1 & E2 & F2 & D2). rewrite E2. cbn [rbind].
    change (gden (mkG 0 0 0 0 (els ge))) with (gden ge) in D2.
    destruct (IH Ah' Ph' a1 F2) as (r & Er & Fr & Sr & Vr). exists r. split; [exact Er|]. split; [exact Fr|].
    assert (S1 : shape_of (gden a1) = shmax (shape_of (gden acc)) (shmax (gshape (els g)) (shape_of (den t)))).
    { rewrite (shape_eq _ _ D2), shape_dbin, (shape_eq _ _ D1), shape_dbin, shape_gden. now rewrite (shape_gden g). }
    split.
    + rewrite Sr, S1, gshape_cons. cbn [iden]. destruct h as [|e2 h].
      * change (gshape []) with (SH [] [] [] []). now rewrite !shmax_nil.
      * set (A := shape_of (gden acc)). set (G := gshape (els g)). set (B := shape_of (den t)). set (C := gshape (e2 :: h)).
        rewrite <- !shmax_assoc. f_equal. rewrite (shmax_assoc G B), (shmax_sym G B), <- (shmax_assoc B G), (shmax_assoc G G C), shmax_idem.
        rewrite !shmax_assoc. now rewrite (shmax_sym B G).
    + intros x y n d Hi. rewrite (Vr x y n d Hi).
      rewrite (dsame_at S _ _ x y n d D2); auto; [|eapply dpos_gden; eauto|now apply dbelow_gden].
      rewrite get_dbin. rewrite (dsame_at S _ _ x y n d D1); auto; [|eapply dpos_gden; eauto|now apply dbelow_gden].
      rewrite get_dbin. unfold gsum_at. rewrite Rsum_cons. cbn [op_fun iden]. ring.
Qed.
Lemma gshape_app a b : gshape (a ++ b) = shmax (gshape a) (gshape b).
Proof.
  induction a as [|e a IH]; cbn [app]; [change (gshape []) with (SH [] [] [] []); now rewrite shmax_sym, shmax_nil|].
  now rewrite !gshape_cons, IH, shmax_assoc.
Qed.
Theorem gmulg_ok S g h : spos S -> gfits S g -> gfits S h -> els g <> [] -> els h <> [] -> elements (fun o => elements (pairs MUL o) g) h ->
  exists r, gbin_g g h MUL = Ok r /\ gfits S r /\ dsame (gden r) (dbin Rmult (gden g) (gden h)).
Proof.
  intros PS Fg Fh Ng Nh El.
  assert (AA : allfit S (els g ++ els h)) by (apply Forall_app; split; assumption).
  set (T := gshape (els g ++ els h)). pose proof (gshape_spos S _ AA) as PT'. fold T in PT'.
  assert (Fg' : gfits T g) by (apply (allfit_shrink S _ PS AA (els g)); intros e He; apply in_app_iff; auto).
  assert (Fh' : gfits T h) by (apply (allfit_shrink S _ PS AA (els h)); intros e He; apply in_app_iff; auto).
  set (z := mkG (Nat.max (gx g) (gx h)) (Nat.max (gy g) (gy h)) (Nat.max (gn g) (gn h)) (Nat.max (gd g) (gd h)) []).
  destruct (gmulg_fold S g PS Fg Ng (els h) Fh El z ltac:(constructor)) as (r & Er & Fr & Sr & _).
  destruct (gmulg_fold T g PT' Fg' Ng (els h) Fh' El z ltac:(constructor)) as (r' & Er' & _ & _ & Vr).
  rewrite Er in Er'. injection Er' as <-. exists r. split; [exact Er|]. split; [exact Fr|].
  assert (Sz : shape_of (gden z) = SH [] [] [] []) by reflexivity.
  assert (Srt : shape_of (gden r) = T).
  { rewrite Sr, Sz. clear -Nh. unfold T. destruct (els h); [congruence|]. rewrite gshape_app. rewrite (shmax_sym (SH [] [] [] [])). apply shmax_nil. }
  apply dsame_intro.
  - rewrite Srt, shape_dbin, !shape_gden. unfold T. apply gshape_app.
  - rewrite Srt. intros x y n d Hi. rewrite (Vr x y n d Hi), get_dbin, (get_gden h). unfold z. rewrite (get_gden (mkG _ _ _ _ [])). unfold gsum_at at 1. cbn [els]. rewrite Rsum_nil. ring.
Qed.
(** Tensor * GenericTensor *)
Theorem tprodg_ok S g o : spos S -> gfits S g -> els g <> [] -> fits S o -> elements (pairs MUL o) g ->
  exists g', tbin o (PG g) MUL = Ok (PG g') /\ gfits S g' /\ dsame (gden g') (dbin Rmult (den o) (gden g)).
Proof.
  intros PS Fg Ne Fo El. destruct (gprod_ok S g o MUL PS (or_introl eq_refl) Fg Ne Fo El) as (g' & E & F & D & _).
  exists g'. cbn [tbin]. rewrite E. split; [reflexivity|]. split; [exact F|]. eapply dsame_trans; [exact D|]. apply dsame_intro.
  - rewrite !shape_dbin. apply shmax_sym.
  - intros x y n d _. rewrite !get_dbin. cbn [op_fun]. ring.
Qed.

(** *** the Python operators *)
Lemma pairs_mul g o : elements (fun t => same_or_absent (xm t) (xm o) (sX t) (sX o) /\ same_or_absent (ym t) (ym o) (sY t) (sY o)) g -> elements (pairs MUL o) g.
Proof. intros H. eapply Forall_impl; [|exact H]. intros e (t & -> & A & B). exists t. split; [reflexivity|]. split; [exact A|]. split; [exact B|]. now left. Qed.
Lemma pairs_div g o : xm o = [] -> ym o = [] -> elements (fun t => same_or_absent (xm t) (xm o) (sX t) (sX o) /\ same_or_absent (ym t) (ym o) (sY t) (sY o)) g -> elements (pairs DIV o) g.
Proof. intros M1 M2 H. eapply Forall_impl; [|exact H]. intros e (t & -> & A & B). exists t. split; [reflexivity|]. split; [exact A|]. split; [exact B|]. right; left. auto. Qed.
Theorem gtimes S g o : spos S -> gfits S g -> els g <> [] -> fits S o ->
  elements (fun t => same_or_absent (xm t) (xm o) (sX t) (sX o) /\ same_or_absent (ym t) (ym o) (sY t) (sY o)) g ->
  exists g', py OMul (PG g) (PT o) = Ok (PG g') /\ gfits S g' /\ dsame (gden g') (dbin Rmult (gden g) (den o)) /\
    gx g' = Nat.max (gx g) (xd o) /\ gy g' = Nat.max (gy g) (yd o) /\ gn g' = Nat.max (gn g) (nn o) /\ gd g' = Nat.max (gd g) (dm o) /\ length (els g') = length (els g).
Proof.
  intros PS Fg Ne Fo El. destruct (gprod_ok S g o MUL PS (or_introl eq_refl) Fg Ne Fo (pairs_mul g o El)) as (g' & E & H).
  exists g'. split; [unfold py; cbn [direct reflected]; unfold gbin; cbv beta iota; now rewrite E|exact H].
Qed.
Theorem gover S g o : spos S -> gfits S g -> els g <> [] -> fits S o -> xm o = [] -> ym o = [] ->
  elements (fun t => same_or_absent (xm t) (xm o) (sX t) (sX o) /\ same_or_absent (ym t) (ym o) (sY t) (sY o)) g ->
  exists g', py ODiv (PG g) (PT o) = Ok (PG g') /\ gfits S g' /\ dsame (gden g') (dbin Rdiv (gden g) (den o)) /\
    gx g' = Nat.max (gx g) (xd o) /\ gy g' = Nat.max (gy g) (yd o) /\ gn g' = Nat.max (gn g) (nn o) /\ gd g' = Nat.max (gd g) (dm o) /\ length (els g') = length (els g).
Proof.
  intros PS Fg Ne Fo M1 M2 El. destruct (gprod_ok S g o DIV PS (or_intror eq_refl) Fg Ne Fo (pairs_div g o M1 M2 El)) as (g' & E & H).
  exists g'. split; [unfold py; cbn [direct reflected]; unfold gbin; cbv beta iota; now rewrite E|exact H].
Qed.
Theorem timesg S g o : spos S -> gfits S g -> els g <> [] -> fits S o ->
  elements (fun t => same_or_absent (xm t) (xm o) (sX t) (sX o) /\ same_or_absent (ym t) (ym o) (sY t) (sY o)) g ->
  exists g', py OMul (PT o) (PG g) = Ok (PG g') /\ gfits S g' /\ dsame (gden g') (dbin Rmult (den o) (gden g)).
Proof. intros PS Fg Ne Fo El. exact (tprodg_ok S g o PS Fg Ne Fo (pairs_mul g o El)). Qed.
Theorem gtimesg S g h : spos S -> gfits S g -> gfits S h -> els g <> [] -> els h <> [] ->
  elements (fun o => elements (fun t => same_or_absent (xm t) (xm o) (sX t) (sX o) /\ same_or_absent (ym t) (ym o) (sY t) (sY o)) g) h ->
  exists r, py OMul (PG g) (PG h) = Ok (PG r) /\ gfits S r /\ dsame (gden r) (dbin Rmult (gden g) (gden h)).
Proof.
  intros PS Fg Fh Ng Nh El. destruct (gmulg_ok S g h PS Fg Fh Ng Nh) as (r & E & H).
  - eapply Forall_impl; [|exact El]. intros e (o & -> & A). exists o. split; [reflexivity|]. now apply pairs_mul.
  - exists r. split; [unfold py; cbn [direct reflected]; unfold gbin; cbv beta iota; now rewrite E|exact H].
Qed.
Theorem gplus_num S g c : spos S -> gfits S g -> els g <> [] ->
  exists g', py OAdd (PG g) (PNum c) = Ok (PG g') /\ py OAdd (PNum c) (PG g) = Ok (PG g') /\ gfits S g' /\ dsame (gden g') (dmap (fun v => v + c) (gden g)) /\
    gx g' = gx g /\ gy g' = gy g /\ gn g' = gn g /\ gd g' = gd g.
Proof.
  intros PS Fg Ne. destruct (gadd_num S g c ADD PS (or_introl eq_refl) Fg Ne) as (g' & E & H). exists g'. unfold py; cbn [direct reflected]; unfold gbin; cbv beta iota. rewrite E. cbn [rmap]. auto.
Qed.
Theorem gminus_num S g c : spos S -> gfits S g -> els g <> [] ->
  (exists g', py OSub (PG g) (PNum c) = Ok (PG g') /\ gfits S g' /\ dsame (gden g') (dmap (fun v => v - c) (gden g)) /\
    gx g' = gx g /\ gy g' = gy g /\ gn g' = gn g /\ gd g' = gd g) /\
  (exists g', py OSub (PNum c) (PG g) = Ok (PG g') /\ gfits S g' /\ dsame (gden g') (dmap (fun v => c - v) (gden g)) /\
    gx g' = gx g /\ gy g' = gy g /\ gn g' = gn g /\ gd g' = gd g).
Proof.
  intros PS Fg Ne. split.
  - destruct (gadd_num S g c SUB PS (or_intror eq_refl) Fg Ne) as (g' & E & H). exists g'. unfold py; cbn [direct reflected]; unfold gbin; cbv beta iota. rewrite E. cbn [rmap]. auto.
  - destruct (grsub_num S g c PS Fg Ne) as (g' & E & H). exists g'. unfold py; cbn [direct reflected]; unfold gbin; cbv beta iota. rewrite E. cbn [rmap]. auto.
Qed.
Theorem gtimes_num S g c : spos S -> gfits S g -> c <> 0 ->
  (exists g', py OMul (PG g) (PNum c) = Ok (PG g') /\ py OMul (PNum c) (PG g) = Ok (PG g') /\ gfits S g' /\ dsame (gden g') (dmap (fun v => v * c) (gden g)) /\
    gx g' = gx g /\ gy g' = gy g /\ gn g' = gn g /\ gd g' = gd g) /\
  (exists g', py ODiv (PG g) (PNum c) = Ok (PG g') /\ gfits S g' /\ dsame (gden g') (dmap (fun v => v / c) (gden g)) /\
    gx g' = gx g /\ gy g' = gy g /\ gn g' = gn g /\ gd g' = gd g).
Proof.
  intros PS Fg Hc. split.
  - destruct (gprod_num S g c MUL PS (or_introl eq_refl) Hc Fg) as (g' & E & H). exists g'. unfold py; cbn [direct reflected]; unfold gbin; cbv beta iota. rewrite E. cbn [rmap]. auto.
  - destruct (gprod_num S g c DIV PS (or_intror eq_refl) Hc Fg) as (g' & E & H). exists g'. unfold py; cbn [direct reflected]; unfold gbin; cbv beta iota. rewrite E. cbn [rmap]. auto.
Qed.
Theorem gzero S g : gfits S g -> els g <> [] ->
  (exists g', py OMul (PG g) (PNum 0) = Ok (PG g') /\ dsame (gden g') dzero) /\
  py ODiv (PG g) (PNum 0) = Raise ZeroDivisionError.
Proof.
  intros Fg Ne. split.
  - destruct (gmul_zero g) as [E D]; [eapply Forall_impl; [|exact Fg]; intros e (t & -> & _); eauto|]. eexists. split; [unfold py; cbn [direct reflected]; unfold gbin; cbv beta iota; rewrite E; reflexivity|exact D].
  - unfold gfits in Fg. destruct (els g) as [|e es] eqn:Ee; [congruence|]. inversion Fg as [|? ? (t & Et & _) _]; subst. unfold py; cbn [direct reflected]; unfold gbin; cbv beta iota. rewrite (gdiv_zero g _ t es Ee eq_refl). reflexivity.
Qed.
Theorem gdivisor g :
  (forall c, py ODiv (PNum c) (PG g) = Raise InvalidOperation) /\ (forall o, py ODiv (PT o) (PG g) = Raise InvalidOperation) /\
  (forall h, py ODiv (PG h) (PG g) = Raise InvalidOperation).
Proof. repeat split. Qed.
