(** GenericTensor: formal sums of tensors with different diagonals. *)
From Verif Require Import Prelude DenseModel AnalyticSpec DenseProofs NDArray NDProofs TensorModel TensorSpec TensorSpecOps TensorLemmas TensorBasic TensorSum TensorSumMain TensorBin TensorArith TensorShape.
From Coq Require Import Reals Lra.
Import List ListNotations.
Open Scope R_scope.

(** *** groups below a common shape *)
Lemma below_bok a b S : below a S -> below b S -> bok a b.
Proof.
  intros [->|H]; [now left|]. intros [->|H']; [now right; left|]. right; right. revert b H'; induction H as [|s s0 a S Hs _ IH]; intros b H'; inversion H'; subst; constructor; auto.
  unfold bcompat. lia.
Qed.
Lemma below_bmax a b S : posl S -> below a S -> below b S -> below (bmax a b) S.
Proof.
  intros P [->|H]; [now cbn|]. intros [->|H']; [rewrite bmax_nil_r; now right|]. right. revert b H'; induction H as [|s s0 a S Hs _ IH]; intros b H'; inversion H'; subst; cbn [bmax]; constructor.
  - inversion P; subst. lia.
  - inversion P; subst. apply IH; auto.
Qed.
Lemma below_in g S i : posl g -> below g S -> In i (indices S) -> In (clamp g i) (indices g).
Proof.
  intros P [->|H] Hi; [now left|]. rewrite In_indices in *. revert i Hi; induction H as [|s s0 g S Hs _ IH]; intros i Hi; inversion Hi; subst; cbn [clamp]; constructor.
  - inversion P; subst. unfold clampi. destruct (Nat.leb_spec s 1); lia.
  - inversion P; subst. apply IH; auto.
Qed.
Lemma below_refl S : below S S.
Proof. right. induction S; constructor; auto. Qed.
Definition bmaxs (l : list (list nat)) : list nat := fold_right bmax [] l.
Lemma below_bmaxs l S : posl S -> Forall (fun g => below g S) l -> below (bmaxs l) S.
Proof. intros P. induction 1; cbn [bmaxs fold_right]; [now left|]. now apply below_bmax. Qed.
Lemma below_max g h S : posl g -> posl h -> below g S -> below h S -> below g (bmax g h).
Proof.
  intros Pg Ph [->|H]; [now left|]. intros [->|H']; [rewrite bmax_nil_r; apply below_refl|]. right.
  revert h Ph H'; induction H as [|s s0 g S Hs _ IH]; intros h Ph H'; inversion H'; subst; inversion Pg; inversion Ph; subst; cbn [bmax]; constructor; [lia|]. apply IH; auto.
Qed.
Lemma bmaxs_pos l : Forall posl l -> posl (bmaxs l).
Proof. induction 1; cbn [bmaxs fold_right]; [constructor|]. now apply bmax_pos. Qed.
(** an element of a family is below the maximum of the family *)
Lemma below_of_max l g S : posl S -> Forall posl l -> Forall (fun g => below g S) l -> In g l -> below g (bmaxs l).
Proof.
  intros PS P B. induction l as [|h l IH]; intros Hg; [destruct Hg|]. inversion P; inversion B; subst. cbn [bmaxs fold_right]. fold (bmaxs l).
  destruct Hg as [<-|Hg].
  - apply (below_max h (bmaxs l) S); auto using bmaxs_pos, below_bmaxs.
  - assert (Bg : below g (bmaxs l)) by auto. pose proof (below_bmaxs l S PS ltac:(auto)) as BM. pose proof (bmaxs_pos l ltac:(auto)) as PM.
    assert (BM2 : below (bmaxs l) (bmax (bmaxs l) h)) by (apply (below_max _ h S); auto). rewrite bmax_sym.
    destruct Bg as [->|Bg]; [now left|]. destruct BM2 as [E|BM2]; [rewrite E in Bg; inversion Bg; subst; now left|].
    right. clear - Bg BM2. revert BM2. generalize (bmax (bmaxs l) h). intros T BM2. revert T BM2; induction Bg as [|a b g M Hab _ IH]; intros T H; inversion H; subst; constructor; [lia|auto].
Qed.

(** *** reading below a shape *)
Definition at_shape (S : shape4) (x y n d : idx) : Prop := In x (indices (SX S)) /\ In y (indices (SY S)) /\ In n (indices (SN S)) /\ In d (indices (SD S)).
Record dbelow (S : shape4) (a : dt) : Prop := mkDB { db_x : below (xs a) (SX S); db_y : below (ys a) (SY S); db_n : below (ns a) (SN S); db_d : below (ds a) (SD S) }.
Lemma dsame_at S a b x y n d : dsame a b -> dpos a -> dbelow S a -> at_shape S x y n d -> get a x y n d = get b x y n d.
Proof.
  intros (E1 & E2 & E3 & E4 & V) (P1 & P2 & P3 & P4) [B1 B2 B3 B4] (H1 & H2 & H3 & H4). unfold get. rewrite <- E1, <- E2, <- E3, <- E4.
  apply V; eapply below_in; eauto.
Qed.
Definition shape_of (a : dt) : shape4 := SH (xs a) (ys a) (ns a) (ds a).
Lemma dsame_intro a b : shape_of a = shape_of b -> (forall x y n d, at_shape (shape_of a) x y n d -> get a x y n d = get b x y n d) -> dsame a b.
Proof.
  intros E H. unfold shape_of in E. injection E as E1 E2 E3 E4. unfold dsame. repeat (split; [assumption|]). intros x y n d Hx Hy Hn Hd.
  specialize (H x y n d (conj Hx (conj Hy (conj Hn Hd)))). unfold get in H. rewrite <- E1, <- E2, <- E3, <- E4 in H. rewrite !clamp_in in H; auto.
Qed.
Lemma fits_dbelow S t : fits S t -> dbelow S (den t).
Proof. intros F. constructor; cbn [den ns ds]; apply F. Qed.
Lemma fits_dcompat S s o : fits S s -> fits S o -> dcompat (den s) (den o).
Proof. intros [] []. constructor; eapply below_bok; eauto. Qed.

(** *** pairs with equal maps *)
Lemma bok_stored m S : forall X X' N N', length X = length X' -> single_at m X -> single_at m X' ->
  Forall (fun f => f < length N)%nat (targets m) -> Forall (fun f => f < length N')%nat (targets m) ->
  Forall2 (fun s s' => s = 1 \/ s = s')%nat (gx_ m X N) S -> Forall2 (fun s s' => s = 1 \/ s = s')%nat (gx_ m X' N') S -> Forall2 bcompat X X'.
Proof.
  revert S; induction m as [|[f|] m IH]; intros S X X' N N' L H H' T T' B B'.
  - cbn [gx_] in *. clear - B B'. revert X' B'; induction B; intros X' B'; inversion B'; subst; constructor; auto. unfold bcompat; lia.
  - destruct X as [|s X], X' as [|s' X']; cbn in H, H'; try tauto. destruct H as [-> H], H' as [-> H']. cbn [gx_] in B, B'. cbn [targets] in T, T'.
    destruct S as [|t0 S]; [inversion B|]. apply Forall2_cons_iff in B as [_ B]. apply Forall2_cons_iff in B' as [_ B'].
    apply Forall_cons_iff in T as [_ T]. apply Forall_cons_iff in T' as [_ T']. constructor; [now left|]. apply (IH S X X' N N'); auto.
  - destruct X as [|s X], X' as [|s' X']; cbn in H, H'; try tauto. cbn [gx_] in B, B'. destruct S as [|t0 S]; [inversion B|]. apply Forall2_cons_iff in B as [? B]. apply Forall2_cons_iff in B' as [? B'].
    constructor; [unfold bcompat; lia|]. apply (IH S X X' N N'); auto.
Qed.
Lemma single_nil m : single_at m [] -> m = [].
Proof. destruct m as [|[?|] ?]; cbn; tauto. Qed.
Lemma bok_group m X X' N N' S : single_at m X -> single_at m X' ->
  Forall (fun f => f < length N)%nat (targets m) -> Forall (fun f => f < length N')%nat (targets m) ->
  below (gx_ m X N) S -> below (gx_ m X' N') S -> bok X X'.
Proof.
  intros H H' T T' B B'. destruct X as [|s X]; [now left|]. destruct X' as [|s' X']; [now right; left|]. right; right.
  assert (Z : forall (q : nat) Q M, gx_ m (q :: Q) M <> []) by (intros q Q M E; apply (f_equal (@length nat)) in E; rewrite gx_length in E; discriminate).
  destruct B as [B|B]; [now apply Z in B|]. destruct B' as [B'|B']; [now apply Z in B'|].
  apply (bok_stored m S _ _ N N'); auto. apply Forall2_length' in B, B'. rewrite gx_length in *. congruence.
Qed.
Lemma fits_compat S s o : posl (SN S) -> fits S s -> fits S o -> xm s = xm o -> ym s = ym o -> compat s o.
Proof.
  intros PS Fs Fo Ex Ey. pose proof (wf_groups s (ft_wf _ _ Fs)) as Gs. pose proof (wf_groups o (ft_wf _ _ Fo)) as Go.
  destruct (ft_feat _ _ Fs) as [Tx Ty]. destruct (ft_feat _ _ Fo) as [Ux Uy]. rewrite <- (g_n _ _ _ _ _ Gs) in Tx, Ty. rewrite <- (g_n _ _ _ _ _ Go) in Ux, Uy.
  destruct (den_groups _ _ _ _ _ Gs) as (Dx & Dy & _). destruct (den_groups _ _ _ _ _ Go) as (Dx' & Dy' & _).
  rewrite gx_msizes in Dx, Dy by auto. rewrite gx_msizes in Dx', Dy' by auto.
  pose proof (ft_x _ _ Fs) as Bx. pose proof (ft_y _ _ Fs) as By. pose proof (ft_x _ _ Fo) as Bx'. pose proof (ft_y _ _ Fo) as By'.
  rewrite Dx in Bx. rewrite Dy in By. rewrite Dx' in Bx'. rewrite Dy' in By'. rewrite <- Ex in Bx', Ux. rewrite <- Ey in By', Uy.
  destruct (wf_x s (ft_wf _ _ Fs)) as (Sx & _). destruct (wf_y s (ft_wf _ _ Fs)) as (Sy & _).
  destruct (wf_x o (ft_wf _ _ Fo)) as (Sx' & _). destruct (wf_y o (ft_wf _ _ Fo)) as (Sy' & _). rewrite <- Ex in Sx'. rewrite <- Ey in Sy'.
  assert (FF : forall t u, fits S t -> fits S u -> forall f, In f (targets (xm t)) \/ In f (targets (ym t)) -> (nth f (sN u) 1 <= nth f (sN t) 1)%nat).
  { intros t u Ft Fu f Hf. rewrite (ft_full _ _ Ft f Hf). destruct (ft_n _ _ Fu) as [E|B]; [rewrite E|].
    - destruct f; cbn; destruct (SN S) as [|q Q]; cbn; auto; inversion PS; subst; auto. destruct (Nat.lt_ge_cases f (length Q)).
      + exact (proj1 (Forall_forall _ _) H2 _ (nth_In _ _ H)). + rewrite nth_overflow by auto. auto.
    - clear - B PS. revert f; induction B; intros f; [destruct f; auto|]. inversion PS; subst. destruct f; cbn; [lia|]. apply IHB; auto. }
  constructor.
  - apply (bok_group (xm s) _ _ (sN s) (sN o) (SX S)); auto.
  - apply (bok_group (ym s) _ _ (sN s) (sN o) (SY S)); auto.
  - eapply below_bok; [apply (ft_n _ _ Fs)|apply (ft_n _ _ Fo)].
  - eapply below_bok; [apply (ft_d _ _ Fs)|apply (ft_d _ _ Fo)].
  - intros f Hf. apply FF; auto.
  - intros f Hf. apply FF; auto.
  - intros f Hf. apply FF; auto.
  - intros f Hf. apply FF; auto.
Qed.

(** *** sums of elements *)
Definition gsum_at (es : list item) (x y n d : idx) : R := Rsum (fun e => get (iden e) x y n d) es.
Definition gshape (es : list item) : shape4 :=
  SH (bmaxs (map (fun e => xs (iden e)) es)) (bmaxs (map (fun e => ys (iden e)) es))
     (bmaxs (map (fun e => ns (iden e)) es)) (bmaxs (map (fun e => ds (iden e)) es)).
Definition shmax (a b : shape4) : shape4 := SH (bmax (SX a) (SX b)) (bmax (SY a) (SY b)) (bmax (SN a) (SN b)) (bmax (SD a) (SD b)).
Lemma shmax_assoc a b c : shmax a (shmax b c) = shmax (shmax a b) c.
Proof. unfold shmax; cbn. now rewrite !bmax_assoc. Qed.
Lemma shmax_sym a b : shmax a b = shmax b a.
Proof. unfold shmax. f_equal; apply bmax_sym. Qed.
Lemma shape_dbin op a b : shape_of (dbin op a b) = shmax (shape_of a) (shape_of b).
Proof. reflexivity. Qed.
Lemma gshape_cons e es : gshape (e :: es) = shmax (shape_of (iden e)) (gshape es).
Proof. reflexivity. Qed.
Lemma fold_dadd_get l : forall a x y n d, get (fold_left dadd l a) x y n d = get a x y n d + Rsum (fun b => get b x y n d) l.
Proof.
  induction l as [|b l IH]; intros a x y n d; cbn [fold_left]; [rewrite Rsum_nil; ring|]. rewrite IH, get_dadd, Rsum_cons. ring.
Qed.
Lemma get_gden g x y n d : get (gden g) x y n d = gsum_at (els g) x y n d.
Proof. unfold gden. rewrite fold_dadd_get, get_zero, Rsum_map, Rplus_0_l. reflexivity. Qed.
Lemma fold_dadd_shape l : forall a, shape_of (fold_left dadd l a) = shmax (shape_of a) (SH (bmaxs (map xs l)) (bmaxs (map ys l)) (bmaxs (map ns l)) (bmaxs (map ds l))).
Proof.
  induction l as [|b l IH]; intros a; cbn [fold_left map bmaxs fold_right].
  - unfold shmax, shape_of; cbn. now rewrite !bmax_nil_r.
  - rewrite IH. unfold dadd. rewrite shape_dbin, <- shmax_assoc. reflexivity.
Qed.
Lemma shape_gden g : shape_of (gden g) = gshape (els g).
Proof. unfold gden. rewrite fold_dadd_shape. unfold shmax, shape_of, gshape. cbn. now rewrite !map_map. Qed.

(** *** two tensors *)
Lemma rank_groups t : wf t -> shp (tv t) = [] <-> (xs (den t) = [] /\ ys (den t) = [] /\ ns (den t) = [] /\ ds (den t) = []).
Proof.
  intros W. pose proof (wf_groups t W) as G. destruct (den_groups _ _ _ _ _ G) as (Dx & Dy & Dn & Dd). rewrite Dx, Dy, Dn, Dd.
  destruct G as [GS L1 L2 L3 L4]. rewrite GS. split.
  - intros E. apply app_eq_nil in E as [E1 E]. apply app_eq_nil in E as [E2 E]. apply app_eq_nil in E as [E3 E4]. rewrite E1, E2, E3, E4.
    destruct (xm t) as [|[?|] ?], (ym t) as [|[?|] ?]; cbn; auto.
  - intros (E1 & E2 & E3 & E4). rewrite E3, E4. apply (f_equal (@length nat)) in E1, E2. rewrite msizes_length in E1, E2.
    apply length_zero_iff_nil in E1, E2. now rewrite E1, E2.
Qed.
Lemma bmax_nil_inv a b : bmax a b = [] -> a = [].
Proof. destruct a, b; cbn; auto; discriminate. Qed.
Lemma fits_result S s r op o : spos S -> fits S s -> fits S o -> wf r -> to_features r -> xm r = xm s -> ym r = ym s ->
  dsame (den r) (dbin op (den s) (den o)) -> fits S r.
Proof.
  intros (PX & PY & PN & PD) Fs Fo Wr Tr Ex Ey De. pose proof De as (E1 & E2 & E3 & E4 & _). cbn [dbin xs ys ns ds] in E1, E2, E3, E4.
  constructor; auto.
  - intros Z. apply (rank_groups r Wr) in Z as (Z1 & Z2 & Z3 & Z4). apply (ft_rank _ _ Fs). apply (rank_groups s (ft_wf _ _ Fs)).
    rewrite E1 in Z1. rewrite E2 in Z2. rewrite E3 in Z3. rewrite E4 in Z4.
    repeat split; eapply bmax_nil_inv; eauto.
  - rewrite E1. apply below_bmax; auto; [apply (ft_x _ _ Fs)|apply (ft_x _ _ Fo)].
  - rewrite E2. apply below_bmax; auto; [apply (ft_y _ _ Fs)|apply (ft_y _ _ Fo)].
  - change (sN r) with (ns (den r)). rewrite E3. apply below_bmax; auto; [apply (ft_n _ _ Fs)|apply (ft_n _ _ Fo)].
  - change (sD r) with (ds (den r)). rewrite E4. apply below_bmax; auto; [apply (ft_d _ _ Fs)|apply (ft_d _ _ Fo)].
  - intros f Hf. rewrite Ex, Ey in Hf. change (sN r) with (ns (den r)). rewrite E3. cbn [den ns].
    pose proof (ft_full _ _ Fs f Hf) as FS. rewrite <- FS. apply nth_bmax_full.
    + destruct (ft_feat _ _ Fs) as [Tx Ty]. rewrite (g_n _ _ _ _ _ (wf_groups s (ft_wf _ _ Fs))).
      destruct Hf as [Hf|Hf]; [exact (proj1 (Forall_forall _ _) Tx f Hf)|exact (proj1 (Forall_forall _ _) Ty f Hf)].
    + rewrite FS. destruct (ft_n _ _ Fo) as [Z|B]; [rewrite Z|].
      * destruct (Nat.lt_ge_cases f (length (SN S))) as [L|L]; [|rewrite (nth_overflow (SN S)) by auto; destruct f; auto].
        pose proof (proj1 (Forall_forall _ _) PN _ (nth_In _ 1%nat L)) as Q. cbn beta in Q. destruct f; auto.
      * clear - B PN. revert f; induction B; intros f; [destruct f; auto|]. inversion PN; subst. destruct f; cbn; [lia|]. apply IHB; auto.
Qed.
Lemma pair_op S s o op : spos S -> fits S s -> fits S o -> additive op = true ->
  (exists r, tbin_t s o op = Ok (PT r) /\ fits S r /\ dsame (den r) (dbin (op_fun op) (den s) (den o))) \/
  (exists g, tbin_t s o op = Ok (PG g)).
Proof.
  intros PS Fs Fo A. unfold tbin_t. pose proof (ft_rank _ _ Fo) as Ro. destruct (shp (tv o)) as [|h0 l0] eqn:Eo; [congruence|]. clear Ro.
  destruct (map_eqb (xm s) (xm o) && map_eqb (ym s) (ym o)) eqn:M.
  - left. apply andb_true_iff in M as [Mx My]. apply map_eqb_eq in Mx, My.
    destruct (tadd_same s o op (ft_wf _ _ Fs) (ft_wf _ _ Fo) (ft_feat _ _ Fs) (ft_feat _ _ Fo)) as (r & Er & Wr & Tr & Ex & Ey & De); auto.
    { eapply fits_compat; eauto. apply PS. } { apply (ft_rank _ _ Fs). }
    exists r. split; [exact Er|]. split; [|exact De]. now apply (fits_result S s r (op_fun op) o).
  - right. destruct (tadd_diff s o op (ft_wf _ _ Fs) (ft_wf _ _ Fo)) as (v & Ev & _); auto.
    { eapply fits_dcompat; eauto. } { apply (ft_rank _ _ Fs). }
    { rewrite <- !map_eqb_eq. destruct (map_eqb (xm s) (xm o)), (map_eqb (ym s) (ym o)); cbn in M; auto; discriminate. }
    rewrite Ev. pose proof Ev as Ev'. unfold tbin_tensor in Ev'. pose proof (ft_rank _ _ Fs) as Rs. destruct (shp (tv s)); [congruence|].
    repeat match type of Ev' with rbind (py_assert ?b) _ = _ => destruct b; cbn [py_assert rbind] in Ev'; [|discriminate] end.
    rewrite A, M in Ev'. destruct op; try discriminate A.
    + injection Ev' as <-. eauto.
    + destruct (tneg o); cbn [rbind] in Ev'; [|discriminate]. injection Ev' as <-. eauto.
    + destruct (tneg s); cbn [rbind] in Ev'; [|discriminate]. injection Ev' as <-. eauto.
Qed.
Lemma fits_neg S t : fits S t -> exists r, tneg t = Ok r /\ fits S r /\ dsame (den r) (dneg (den t)).
Proof.
  intros F. destruct (retensor t (np_map Ropp (tv t)) (ft_wf _ _ F) eq_refl) as (r & Er & Wr & E1 & E2 & E3 & E4 & Ex & Ey & Ev & S1 & S2 & S3 & S4).
  destruct (tneg_ok t (ft_wf _ _ F)) as (r' & Er' & _ & De). unfold tneg in Er'. rewrite Er in Er'. injection Er' as <-.
  exists r. split; [exact Er|]. split; [|exact De]. constructor; auto.
  - destruct (ft_feat _ _ F) as [? ?]. split; rewrite ?Ex, ?Ey, E3; auto.
  - rewrite Ev. apply (ft_rank _ _ F).
  - rewrite S1. apply F.
  - rewrite S2. apply F.
  - change (sN r) with (ns (den r)). rewrite S3. apply F.
  - change (sD r) with (ds (den r)). rewrite S4. apply F.
  - rewrite Ex, Ey. change (sN r) with (ns (den r)). rewrite S3. apply (ft_full _ _ F).
Qed.
Definition allfit (S : shape4) (es : list item) : Prop := Forall (fun e => exists t, e = IT t /\ fits S t) es.

(** tensor.py:375-398 *)
Lemma absorb_ok S o op o' : spos S -> fits S o -> op = ADD \/ op = SUB -> fits S o' -> shape_of (den o') = shape_of (den o) ->
  (forall x y n d, at_shape S x y n d -> get (den o') x y n d = op_fun op 0 (get (den o) x y n d)) ->
  forall es, allfit S es ->
  exists es', absorb es (IT o) op (Ok (IT o')) = Ok es' /\ allfit S es' /\ gshape es' = shmax (gshape es) (shape_of (den o)) /\
    forall x y n d, at_shape S x y n d -> gsum_at es' x y n d = op_fun op (gsum_at es x y n d) (get (den o) x y n d).
Proof.
  intros PS Fo Hop Fo' So Vo. assert (A : additive op = true) by (destruct Hop as [-> | ->]; reflexivity).
  induction es as [|e es IH]; intros H; cbn [absorb].
  - cbn [rbind]. exists [IT o']. split; [reflexivity|]. split; [constructor; eauto|]. split.
    + rewrite gshape_cons. cbn [iden]. rewrite So. unfold gshape, shmax; cbn. now rewrite !bmax_nil_r.
    + intros x y n d Hi. unfold gsum_at. rewrite Rsum_cons, !Rsum_nil, Rplus_0_r. cbn [iden]. now apply Vo.
  - inversion H as [|? ? [s [-> Fs]] H']; subst. cbn [item_bin tbin1].
    destruct (pair_op S s o op PS Fs Fo A) as [(r & Er & Fr & De)|(g & Eg)].
    + rewrite Er. cbn [rbind]. exists (IT r :: es). split; [reflexivity|]. split; [constructor; eauto|]. split.
      * rewrite !gshape_cons. cbn [iden]. assert (SR : shape_of (den r) = shmax (shape_of (den s)) (shape_of (den o))).
        { destruct De as (E1 & E2 & E3 & E4 & _). unfold shape_of, shmax; cbn [SX SY SN SD]. rewrite E1, E2, E3, E4. reflexivity. }
        rewrite SR, <- !shmax_assoc. f_equal. apply shmax_sym.
      * intros x y n d Hi. unfold gsum_at. rewrite !Rsum_cons. cbn [iden].
        rewrite (dsame_at S _ _ x y n d De); auto; [|apply wf_dpos, Fr|now apply fits_dbelow]. rewrite get_dbin.
        destruct Hop as [-> | ->]; cbn [op_fun]; ring.
    + rewrite Eg. cbn [rbind]. destruct (IH H') as (es' & E & F' & S' & V'). rewrite E. cbn [rbind]. exists (IT s :: es').
      split; [reflexivity|]. split; [constructor; eauto|]. split.
      * rewrite !gshape_cons, S', shmax_assoc. reflexivity.
      * intros x y n d Hi. unfold gsum_at in *. rewrite !Rsum_cons, V' by auto. destruct Hop as [-> | ->]; cbn [op_fun]; ring.
Qed.

(** restriction to the exact shape of a family *)
Lemma fits_shrink S es t : spos S -> allfit S es -> In (IT t) es -> fits (gshape es) t.
Proof.
  intros (PX & PY & PN & PD) A Ht. assert (F : fits S t) by (pose proof (proj1 (Forall_forall _ _) A _ Ht) as (t' & E & F); injection E as <-; auto).
  assert (AP : forall e, In e es -> dpos (iden e)) by (intros e He; pose proof (proj1 (Forall_forall _ _) A _ He) as (t' & -> & F'); apply wf_dpos, F').
  assert (AB : forall e, In e es -> dbelow S (iden e)) by (intros e He; pose proof (proj1 (Forall_forall _ _) A _ He) as (t' & -> & F'); now apply fits_dbelow).
  assert (K : forall (pr : dt -> list nat) (s : list nat), posl s -> (forall a, dpos a -> posl (pr a)) -> (forall a, dbelow S a -> below (pr a) s) -> below (pr (den t)) (bmaxs (map (fun e => pr (iden e)) es))).
  { intros pr s Ps H1 H2. apply (below_of_max _ _ s); auto.
    - apply Forall_forall. intros g Hg. apply in_map_iff in Hg as (e & <- & He). auto.
    - apply Forall_forall. intros g Hg. apply in_map_iff in Hg as (e & <- & He). auto.
    - apply in_map_iff. exists (IT t). auto. }
  constructor; try apply F.
  - apply (K xs (SX S)); auto; [intros a Ha; apply Ha|intros a Ha; apply Ha].
  - apply (K ys (SY S)); auto; [intros a Ha; apply Ha|intros a Ha; apply Ha].
  - apply (K ns (SN S)); auto; [intros a Ha; apply Ha|intros a Ha; apply Ha].
  - apply (K ds (SD S)); auto; [intros a Ha; apply Ha|intros a Ha; apply Ha].
  - intros f Hf. rewrite (ft_full _ _ F f Hf). cbn [gshape SN].
    pose proof (below_bmaxs (map (fun e => ns (iden e)) es) (SN S) PN) as BM.
    assert (BM' : below (bmaxs (map (fun e => ns (iden e)) es)) (SN S)). { apply BM. apply Forall_forall. intros g Hg. apply in_map_iff in Hg as (e & <- & He). apply AB, He. }
    assert (BT : below (sN t) (bmaxs (map (fun e => ns (iden e)) es))) by (apply (K ns (SN S)); auto; [intros a Ha; apply Ha|intros a Ha; apply Ha]).
    assert (Lf : (f < length (sN t))%nat). { destruct (ft_feat _ _ F) as [Tx Ty]. rewrite (g_n _ _ _ _ _ (wf_groups t (ft_wf _ _ F))).
      destruct Hf as [Hf|Hf]; [exact (proj1 (Forall_forall _ _) Tx f Hf)|exact (proj1 (Forall_forall _ _) Ty f Hf)]. }
    pose proof (ft_full _ _ F f Hf) as FS. rewrite <- FS.
    destruct BT as [Z|BT]; [rewrite Z in Lf; cbn in Lf; lia|]. destruct BM' as [Z|BM']; [rewrite Z in BT; inversion BT as [E0|]; rewrite <- E0 in Lf; cbn in Lf; lia|].
    assert (Q1 : (nth f (sN t) 1 = 1 \/ nth f (sN t) 1 = nth f (bmaxs (map (fun e => ns (iden e)) es)) 1)%nat).
    { clear - BT Lf. revert f Lf; induction BT; intros [|f] Lf; cbn in *; try lia. apply IHBT; lia. }
    assert (Lm : (f < length (bmaxs (map (fun e => ns (iden e)) es)))%nat) by (apply Forall2_length' in BT; lia).
    assert (Q2 : (nth f (bmaxs (map (fun e => ns (iden e)) es)) 1 = 1 \/ nth f (bmaxs (map (fun e => ns (iden e)) es)) 1 = nth f (SN S) 1)%nat).
    { clear - BM' Lm. revert f Lm; induction BM'; intros [|f] Lm; cbn in *; try lia. apply IHBM'; lia. }
    lia.
Qed.
Lemma gshape_spos S es : allfit S es -> spos (gshape es).
Proof.
  intros A. assert (AP : forall e, In e es -> dpos (iden e)) by (intros e He; pose proof (proj1 (Forall_forall _ _) A _ He) as (t' & -> & F'); apply wf_dpos, F').
  repeat split; cbn [gshape SX SY SN SD]; apply bmaxs_pos; apply Forall_forall; intros g Hg; apply in_map_iff in Hg as (e & <- & He); apply AP, He.
Qed.
Lemma allfit_shrink S es : spos S -> allfit S es -> forall es', incl es' es -> allfit (gshape es) es'.
Proof.
  intros PS A es' I. apply Forall_forall. intros e He. pose proof (proj1 (Forall_forall _ _) A _ (I _ He)) as (t & -> & F).
  exists t. split; auto. eapply fits_shrink; eauto.
Qed.

(** GenericTensor +/- Tensor *)
Theorem gbin_tensor S g o op : spos S -> gfits S g -> fits S o -> op = ADD \/ op = SUB ->
  exists g', gbin1 g (IT o) op = Ok g' /\ gfits S g' /\ dsame (gden g') (dbin (op_fun op) (gden g) (den o)).
Proof.
  intros PS Fg Fo Hop.
  assert (O' : forall T, spos T -> fits T o -> exists o', (match op with ADD => Ok (IT o) | _ => item_neg (IT o) end) = Ok (IT o') /\ fits T o' /\ shape_of (den o') = shape_of (den o) /\
    forall x y n d, at_shape T x y n d -> get (den o') x y n d = op_fun op 0 (get (den o) x y n d)).
  { intros T PT FT. destruct Hop as [-> | ->].
    - exists o. split; [reflexivity|]. split; [exact FT|]. split; [reflexivity|]. intros. cbn [op_fun]. ring.
    - destruct (fits_neg T o FT) as (r & Er & Fr & De). exists r. cbn [item_neg]. rewrite Er. split; [reflexivity|]. split; [exact Fr|].
      pose proof De as (E1 & E2 & E3 & E4 & _). split; [unfold shape_of; rewrite E1, E2, E3, E4; reflexivity|].
      intros x y n d Hi. rewrite (dsame_at T _ _ x y n d De); auto; [|apply wf_dpos, Fr|now apply fits_dbelow]. unfold dneg. rewrite get_dmap. cbn [op_fun]. ring. }
  assert (EX : exists es', absorb (els g) (IT o) op (match op with ADD => Ok (IT o) | _ => item_neg (IT o) end) = Ok es' /\ allfit S es' /\
    gshape es' = shmax (gshape (els g)) (shape_of (den o)) /\
    (forall T, spos T -> allfit T (els g) -> fits T o -> forall x y n d, at_shape T x y n d -> gsum_at es' x y n d = op_fun op (gsum_at (els g) x y n d) (get (den o) x y n d))).
  { destruct (O' S PS Fo) as (o' & Eo & Fo' & So & Vo). destruct (absorb_ok S o op o' PS Fo Hop Fo' So Vo (els g) Fg) as (es' & E & A & Sh & V).
    exists es'. rewrite Eo. split; [exact E|]. split; [exact A|]. split; [exact Sh|]. intros T PT AT FT.
    destruct (O' T PT FT) as (o'' & Eo' & Fo'' & So' & Vo'). rewrite Eo in Eo'. injection Eo' as <-.
    destruct (absorb_ok T o op o' PT FT Hop Fo'' So' Vo' (els g) AT) as (es'' & E' & _ & _ & V'). rewrite E in E'. injection E' as <-. exact V'. }
  destruct EX as (es' & E & A & Sh & V).
  unfold gbin1. cbn zeta.
  assert (ME : match op with ADD => absorb (els g) (IT o) ADD (Ok (IT o)) | SUB => absorb (els g) (IT o) SUB (item_neg (IT o))
     | RSUB => let! es := rmapM item_neg (els g) in absorb es (IT o) ADD (Ok (IT o)) | MUL | DIV => rmapM (fun e => let! v := item_bin e (IT o) op in as_item v) (els g) | RDIV => Raise InvalidOperation end = Ok es').
  { destruct Hop as [-> | ->]; exact E. }
  rewrite ME. cbn [rbind]. eexists. split; [reflexivity|]. split; [exact A|].
  apply dsame_intro.
  - rewrite shape_gden, shape_dbin, shape_gden. exact Sh.
  - rewrite shape_gden. cbn [els]. intros x y n d Hi. rewrite get_dbin, !get_gden. cbn [els].
    rewrite Sh in Hi. set (T := gshape (IT o :: els g)). assert (ET : shmax (gshape (els g)) (shape_of (den o)) = T) by (unfold T; rewrite gshape_cons; apply shmax_sym).
    rewrite ET in Hi. assert (AA : allfit S (IT o :: els g)) by (constructor; eauto).
    apply (V T); auto.
    + unfold T. eapply gshape_spos; eauto.
    + apply (allfit_shrink S); auto. intros e He. now right.
    + apply (fits_shrink S); auto. now left.
Qed.

(** *** negation *)
Lemma gneg_items S es : spos S -> allfit S es -> exists es', rmapM item_neg es = Ok es' /\ allfit S es' /\ gshape es' = gshape es /\
  forall T, allfit T es -> allfit T es' /\ forall x y n d, at_shape T x y n d -> gsum_at es' x y n d = - gsum_at es x y n d.
Proof.
  intros PS. induction es as [|e es IH]; intros A; cbn [rmapM].
  - exists []. repeat split; auto. intros. unfold gsum_at. rewrite !Rsum_nil. ring.
  - inversion A as [|? ? [t [-> F]] A']; subst. cbn [item_neg]. destruct (fits_neg S t F) as (r & Er & Fr & De). rewrite Er. cbn [rbind].
    destruct (IH A') as (es' & E & Al & Sh & V). rewrite E. cbn [rbind]. exists (IT r :: es'). split; [reflexivity|]. split; [constructor; eauto|]. split.
    + rewrite !gshape_cons, Sh. cbn [iden]. f_equal. destruct De as (E1 & E2 & E3 & E4 & _). unfold shape_of. rewrite E1, E2, E3, E4. reflexivity.
    + intros T AT. inversion AT as [|? ? [t' [Ht FT]] AT']; subst. injection Ht as <-. destruct (V T AT') as [V1 V2].
      destruct (fits_neg T t FT) as (r' & Er' & Fr' & De'). rewrite Er in Er'. injection Er' as <-. split; [constructor; eauto|].
      intros x y n d Hi. unfold gsum_at in *. rewrite !Rsum_cons, V2 by auto. cbn [iden]. rewrite (dsame_at T _ _ x y n d De'); auto; [|apply wf_dpos, Fr|now apply fits_dbelow].
      unfold dneg. rewrite get_dmap. ring.
Qed.
Lemma allfit_own S es : spos S -> allfit S es -> allfit (gshape es) es.
Proof. intros. eapply allfit_shrink; eauto. apply incl_refl. Qed.
Theorem gneg_ok S g : spos S -> gfits S g -> exists g', gneg g = Ok g' /\ gfits S g' /\ dsame (gden g') (dneg (gden g)).
Proof.
  intros PS F. destruct (gneg_items S (els g) PS F) as (es' & E & A & Sh & V). unfold gneg. rewrite E. cbn [rbind]. eexists. split; [reflexivity|].
  split; [exact A|]. apply dsame_intro.
  - rewrite shape_gden. cbn [els]. rewrite Sh, <- shape_gden. reflexivity.
  - rewrite shape_gden. cbn [els]. rewrite Sh. intros x y n d Hi. unfold dneg. rewrite get_dmap, !get_gden. cbn [els].
    apply (V (gshape (els g))); auto. eapply allfit_own; eauto.
Qed.

(** *** GenericTensor +/- GenericTensor *)
Lemma dbelow_gden S g : spos S -> gfits S g -> dbelow S (gden g).
Proof.
  intros (PX & PY & PN & PD) A. pose proof (shape_gden g) as E. unfold shape_of in E. unfold gshape in E. injection E as E1 E2 E3 E4.
  assert (AB : forall e, In e (els g) -> dbelow S (iden e)) by (intros e He; pose proof (proj1 (Forall_forall _ _) A _ He) as (t' & -> & F'); now apply fits_dbelow).
  constructor; [rewrite E1|rewrite E2|rewrite E3|rewrite E4]; apply below_bmaxs; auto; apply Forall_forall; intros h Hh; apply in_map_iff in Hh as (e & <- & He); apply AB, He.
Qed.
Lemma dpos_gden S g : gfits S g -> dpos (gden g).
Proof.
  intros A. pose proof (shape_gden g) as E. unfold shape_of, gshape in E. injection E as E1 E2 E3 E4. pose proof (gshape_spos S (els g) A) as (P1 & P2 & P3 & P4).
  cbn in P1, P2, P3, P4. unfold dpos. rewrite E1, E2, E3, E4. auto.
Qed.
Lemma dbelow_dcompat S a b : dbelow S a -> dbelow S b -> dcompat a b.
Proof. intros [] []. constructor; eapply below_bok; eauto. Qed.
Lemma gadd_fold S op h : spos S -> op = ADD \/ op = SUB -> allfit S h -> forall g, gfits S g ->
  exists g', ofold (fun acc e => gbin1 acc e op) h g = Ok g' /\ gfits S g' /\
    dsame (gden g') (dbin (op_fun op) (gden g) (gden (mkG 0 0 0 0 h))).
Proof.
  intros PS Hop. induction h as [|e h IH]; intros Ah g Fg; cbn [ofold].
  - exists g. split; [reflexivity|]. split; [exact Fg|]. apply dsame_intro.
    + rewrite shape_dbin. unfold shape_of at 3. cbn. unfold shmax, shape_of; cbn. now rewrite !bmax_nil_r.
    + intros x y n d _. rewrite get_dbin. cbn [gden els map fold_left]. rewrite get_zero. destruct Hop as [-> | ->]; cbn [op_fun]; ring.
  - inversion Ah as [|? ? [t [-> Ft]] Ah']; subst. destruct (gbin_tensor S g t op PS Fg Ft Hop) as (g1 & E1 & F1 & D1). rewrite E1. cbn [rbind].
    destruct (IH Ah' g1 F1) as (g2 & E2 & F2 & D2). exists g2. split; [exact E2|]. split; [exact F2|].
    eapply dsame_trans; [exact D2|].
    assert (FH : gfits S (mkG 0 0 0 0 h)) by exact Ah'.
    eapply dsame_trans.
    + apply dsame_dbin; [|eapply dpos_gden; eauto|eapply dpos_gden; eauto|exact D1|apply dsame_refl|reflexivity].
      apply (dbelow_dcompat S); apply dbelow_gden; auto.
    + apply dsame_intro.
      * rewrite !shape_dbin, !shape_gden. cbn [els]. rewrite gshape_cons, shmax_assoc. reflexivity.
      * intros x y n d _. rewrite !get_dbin, !get_gden. cbn [els]. unfold gsum_at. rewrite Rsum_cons. cbn [iden]. destruct Hop as [-> | ->]; cbn [op_fun]; ring.
Qed.

(** *** any expression of sums, differences and negations *)
Lemma vden_below S v : spos S -> vfits S v -> dbelow S (vden v) /\ dpos (vden v).
Proof.
  intros PS F. destruct v; cbn [vfits] in F; try contradiction; cbn [vden].
  - split; [now apply fits_dbelow|apply wf_dpos, F].
  - split; [now apply dbelow_gden|eapply dpos_gden; eauto].
Qed.
Lemma tadd_any S s o op : spos S -> fits S s -> fits S o -> op = ADD \/ op = SUB ->
  exists v, tbin_t s o op = Ok v /\ vfits S v /\ dsame (vden v) (dbin (op_fun op) (den s) (den o)).
Proof.
  intros PS Fs Fo Hop. assert (A : additive op = true) by (destruct Hop as [-> | ->]; reflexivity).
  unfold tbin_t. pose proof (ft_rank _ _ Fo) as Ro. destruct (shp (tv o)) as [|h0 l0] eqn:Eo; [congruence|]. clear Ro.
  destruct (map_eqb (xm s) (xm o) && map_eqb (ym s) (ym o)) eqn:M.
  - apply andb_true_iff in M as [Mx My]. apply map_eqb_eq in Mx, My.
    destruct (tadd_same s o op (ft_wf _ _ Fs) (ft_wf _ _ Fo) (ft_feat _ _ Fs) (ft_feat _ _ Fo)) as (r & Er & Wr & Tr & Ex & Ey & De); auto.
    { eapply fits_compat; eauto. apply PS. } { apply (ft_rank _ _ Fs). }
    exists (PT r). split; [exact Er|]. split; [|exact De]. now apply (fits_result S s r (op_fun op) o).
  - destruct (tadd_diff s o op (ft_wf _ _ Fs) (ft_wf _ _ Fo)) as (v & Ev & De); auto.
    { eapply fits_dcompat; eauto. } { apply (ft_rank _ _ Fs). }
    { rewrite <- !map_eqb_eq. destruct (map_eqb (xm s) (xm o)), (map_eqb (ym s) (ym o)); cbn in M; auto; discriminate. }
    exists v. split; [exact Ev|]. split; [|exact De]. pose proof Ev as Ev'. unfold tbin_tensor in Ev'. pose proof (ft_rank _ _ Fs) as Rs. destruct (shp (tv s)); [congruence|].
    repeat match type of Ev' with rbind (py_assert ?b) _ = _ => destruct b; cbn [py_assert rbind] in Ev'; [|discriminate] end.
    rewrite A, M in Ev'. destruct (fits_neg S o Fo) as (o' & En & Fo' & _). destruct Hop as [-> | ->].
    + injection Ev' as <-. repeat constructor; eauto.
    + rewrite En in Ev'. cbn [rbind] in Ev'. injection Ev' as <-. repeat constructor; eauto.
Qed.

(** tensor.py:375-406, 780-787: [b - a] for a formal sum [a] *)
Lemma grsub S g o : spos S -> gfits S g -> fits S o ->
  exists g', gbin1 g (IT o) RSUB = Ok g' /\ gfits S g' /\ dsame (gden g') (dbin Rminus (den o) (gden g)).
Proof.
  intros PS Fg Fo. destruct (gneg_items S (els g) PS Fg) as (es & E & A & Sh & V).
  destruct (gbin_tensor S (mkG (gx g) (gy g) (gn g) (gd g) es) o ADD PS A Fo (or_introl eq_refl)) as (g1 & E1 & F1 & D1).
  unfold gbin1 in E1 |- *. cbn [els gx gy gn gd] in E1. cbn [els]. rewrite E. cbn [rbind]. exists g1. split; [exact E1|]. split; [exact F1|].
  eapply dsame_trans; [exact D1|]. apply dsame_intro.
  - rewrite !shape_dbin, !shape_gden. cbn [els]. rewrite Sh. apply shmax_sym.
  - rewrite shape_dbin, shape_gden. cbn [els]. intros x y n d Hi. rewrite !get_dbin, !get_gden. cbn [els op_fun].
    set (T := gshape (IT o :: els g)).
    assert (ET : shmax (gshape es) (shape_of (den o)) = T) by (unfold T; rewrite Sh, gshape_cons; apply shmax_sym). rewrite ET in Hi.
    assert (AA : allfit S (IT o :: els g)) by (constructor; eauto).
    destruct (V T) as [_ V2]. { apply (allfit_shrink S); auto. intros e He. now right. }
    rewrite V2 by auto. ring.
Qed.

Lemma gbin_g_ok S g h op : spos S -> gfits S g -> gfits S h -> op = ADD \/ op = SUB ->
  exists g', gbin_g g h op = Ok g' /\ gfits S g' /\ dsame (gden g') (dbin (op_fun op) (gden g) (gden h)).
Proof.
  intros PS Fg Fh Hop. destruct (gadd_fold S op (els h) PS Hop Fh g Fg) as (g' & E & F & D). exists g'. split; [|split; [exact F|]].
  - unfold gbin_g. destruct Hop as [-> | ->]; exact E.
  - exact D.
Qed.
Theorem padd_ok S a b op : spos S -> vfits S a -> vfits S b -> op = ADD \/ op = SUB ->
  exists v, pbin a b op = Ok v /\ vfits S v /\ dsame (vden v) (dbin (op_fun op) (vden a) (vden b)).
Proof.
  intros PS Fa Fb Hop. destruct a as [|?|s|g], b as [|?|o|h]; cbn [vfits] in Fa, Fb; try contradiction; cbn [pbin tbin gbin vden].
  - now apply tadd_any.
  - destruct Hop as [-> | ->].
    + destruct (gbin_tensor S h s ADD PS Fb Fa (or_introl eq_refl)) as (g' & E & F & D). rewrite E. cbn [rmap]. exists (PG g'). split; [reflexivity|]. split; [exact F|].
      cbn [vden]. eapply dsame_trans; [exact D|]. apply dsame_intro.
      * rewrite !shape_dbin. apply shmax_sym.
      * intros x y n d _. rewrite !get_dbin. cbn [op_fun]. ring.
    + destruct (grsub S h s PS Fb Fa) as (g' & E & F & D). rewrite E. cbn [rmap]. exists (PG g'). auto.
  - destruct (gbin_tensor S g o op PS Fa Fb Hop) as (g' & E & F & D). unfold gbin. rewrite E. cbn [rmap]. exists (PG g'). auto.
  - destruct (gbin_g_ok S g h op PS Fa Fb Hop) as (g' & E & F & D). unfold gbin. rewrite E. cbn [rmap]. exists (PG g'). auto.
Qed.
Theorem pneg_ok S a : spos S -> vfits S a -> exists v, pneg a = Ok v /\ vfits S v /\ dsame (vden v) (dneg (vden a)).
Proof.
  intros PS F. destruct a as [|?|s|g]; cbn [vfits] in F; try contradiction; cbn [pneg vden].
  - destruct (fits_neg S s F) as (r & E & Fr & D). rewrite E. exists (PT r). auto.
  - destruct (gneg_ok S g PS F) as (r & E & Fr & D). rewrite E. exists (PG r). auto.
Qed.

(** *** Expressions built with +, - and unary minus *)
Lemma dsame_dneg a b : dpos a -> dsame a b -> dsame (dneg a) (dneg b).
Proof.
  intros P D. apply dsame_intro.
  - unfold dneg, dmap, shape_of. cbn [xs ys ns ds]. destruct D as (-> & -> & -> & -> & _). reflexivity.
  - intros x y n d Hi. unfold dneg. rewrite !get_dmap. f_equal.
    apply (dsame_at (shape_of a)); auto. unfold shape_of. repeat split; apply below_refl.
Qed.
Theorem expr_ok S e : spos S -> Forall (fits S) (leaves e) ->
  exists v, pyeval e = Ok v /\ vfits S v /\ dsame (vden v) (meaning e).
Proof.
  intros PS. induction e as [t | a IHa b IHb | a IHa b IHb | a IHa]; cbn [leaves pyeval meaning]; intros F.
  - exists (PT t). split; [reflexivity|]. split; [now inversion F|apply dsame_refl].
  - apply Forall_app in F. destruct F as [Fa Fb]. destruct (IHa Fa) as (u & -> & Gu & Du). destruct (IHb Fb) as (v & -> & Gv & Dv). cbn [rbind].
    destruct (padd_ok S u v ADD PS Gu Gv (or_introl eq_refl)) as (w & E & Fw & D). exists w. split; [exact E|]. split; [exact Fw|].
    eapply dsame_trans; [exact D|]. destruct (vden_below S u PS Gu), (vden_below S v PS Gv).
    apply dsame_dbin; auto. now apply (dbelow_dcompat S).
  - apply Forall_app in F. destruct F as [Fa Fb]. destruct (IHa Fa) as (u & -> & Gu & Du). destruct (IHb Fb) as (v & -> & Gv & Dv). cbn [rbind].
    destruct (padd_ok S u v SUB PS Gu Gv (or_intror eq_refl)) as (w & E & Fw & D). exists w. split; [exact E|]. split; [exact Fw|].
    eapply dsame_trans; [exact D|]. destruct (vden_below S u PS Gu), (vden_below S v PS Gv).
    apply dsame_dbin; auto. now apply (dbelow_dcompat S).
  - destruct (IHa F) as (u & -> & Gu & Du). cbn [rbind]. destruct (pneg_ok S u PS Gu) as (w & E & Fw & D). exists w. split; [exact E|]. split; [exact Fw|].
    eapply dsame_trans; [exact D|]. destruct (vden_below S u PS Gu). now apply dsame_dneg.
Qed.
