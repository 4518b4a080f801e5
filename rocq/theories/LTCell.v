(** The derivatives of a likelihood that is a sum over cells. *)
From Verif Require Import Prelude DenseModel AnalyticSpec DenseProofs NDArray NDProofs TensorModel TensorSpec TensorSpecOps TensorLemmas TensorBasic TensorSum TensorSumMain TensorBin TensorArith TensorShape TensorExpand TensorGeneric TensorGSum TensorGUni TensorDotCore TensorDot TensorUfunc TensorUfuncP FuncModel FuncSpec FTModel FTRep FTRep2 FTRep3 FTVal LTModel LTPlain LTProd LTOuter.
From Coq Require Import Reals Lra.
Import List ListNotations.
Open Scope R_scope.
Section ex.
Context {ex : exdims}.

(** *** a derivative as a value fitting the data *)
Lemma bmaxs_same g : forall es : list item, es <> [] -> forall f : item -> list nat, (forall e, In e es -> f e = g) -> bmaxs (map f es) = g.
Proof.
  induction es as [|e es IH]; intros NE f H; [congruence|]. cbn [map bmaxs]. rewrite (H e (or_introl eq_refl)). destruct es as [|e' es].
  - cbn. apply bmax_nil_r.
  - change (bmax g (bmaxs (map f (e' :: es))) = g). rewrite IH; [apply bmax_same|discriminate|]. intros x Hx. apply H. now right.
Qed.
Lemma rep_wv Q S v F : spos S -> nonscalar S -> rep true Q S v F -> wv true true false S v F.
Proof.
  intros PS NS R. destruct (rep_nz _ _ _ _ R) as [P T]. destruct v as [c|a|t|g]; [destruct P|destruct P| |].
  - destruct P as [[X _] _]. destruct (xfits_dims _ _ X) as (D1 & D2 & D3 & D4). constructor; auto; try discriminate.
    + now apply xfits_fits.
    + split; auto.
    + apply X.
    + apply X.
  - destruct P as (NE & Fe & _ & G1 & G2 & G3 & G4). pose proof (shape_gden g) as SG.
    assert (It : forall e, In e (els g) -> exists t, e = IT t /\ xfits S t) by (intros e He; destruct (proj1 (Forall_forall _ _) Fe e He) as (t & -> & Xt & _); eauto).
    assert (EX : xs (gden g) = SX S).
    { rewrite (f_equal SX SG : xs (gden g) = SX (gshape (els g))). cbn [gshape SX]. apply bmaxs_same; auto. intros e He. destruct (It e He) as (t & -> & Xt). apply Xt. }
    assert (EY : ys (gden g) = SY S).
    { rewrite (f_equal SY SG : ys (gden g) = SY (gshape (els g))). cbn [gshape SY]. apply bmaxs_same; auto. intros e He. destruct (It e He) as (t & -> & Xt). apply Xt. }
    constructor; auto; try discriminate.
    + cbn [vfits]. apply Forall_forall. intros e He. destruct (It e He) as (t & -> & Xt). exists t. split; [reflexivity|now apply xfits_fits].
    + cbn [vnd]. rewrite EX, EY. split; [auto|]. split; [auto|]. split; [|auto]. apply Forall_forall. intros e He t' Et'. destruct (It e He) as (t & -> & Xt). injection Et' as ->.
      destruct (xfits_dims _ _ Xt) as (_ & _ & D3 & D4). split; auto.
Qed.
(** *** Tensor(0) - v *)
Lemma zsub_T S z t : zval (PT z) -> fits S t -> exists r, tbin_t z t SUB = Ok (PT r) /\ fits S r /\ dsame (den r) (dneg (den t)) /\ nn r = nn t /\ dm r = dm t.
Proof.
  intros (z' & Ez & S0 & V & _) F. injection Ez as <-. pose proof (ft_wf _ _ F) as W.
  destruct (np_bin_scalar (op_fun SUB) (tv z) (tv t) S0 (wf_pos _ W)) as (a & Ea & Sa & Va).
  destruct (retensor t a W Sa) as (r & Er & Wr & E1 & E2 & E3 & E4 & Ex & Ey & Ev & S1 & S2 & S3 & S4). exists r.
  split. { unfold tbin_t. pose proof (ft_rank _ _ F) as Rt. destruct (shp (tv t)) eqn:Est; [congruence|]. unfold tbin_tensor. rewrite S0, Ea. cbn [rbind]. rewrite Er. reflexivity. }
  split.
  { constructor; auto.
    - destruct (ft_feat _ _ F) as [? ?]. split; rewrite ?Ex, ?Ey, E3; auto.
    - rewrite Ev, Sa. apply (ft_rank _ _ F).
    - rewrite S1. apply F.
    - rewrite S2. apply F.
    - change (sN r) with (ns (den r)). rewrite S3. apply F.
    - change (sD r) with (ds (den r)). rewrite S4. apply F.
    - rewrite Ex, Ey. change (sN r) with (ns (den r)). rewrite S3. apply (ft_full _ _ F). }
  split; [|auto]. unfold dsame. rewrite S1, S2, S3, S4. split; [reflexivity|]. split; [reflexivity|]. split; [reflexivity|]. split; [reflexivity|].
  intros x y n d Hx Hy Hn Hd. pose proof (wf_groups t W) as G. unfold den at 1. cbn [at_]. rewrite Ex, Ey, Ev, Va.
  - cbn [op_fun dneg dmap at_ den]. rewrite V. ring.
  - rewrite (g_shp _ _ _ _ _ G). apply in_indices_app2; [|apply in_indices_app2; [|apply in_indices_app2; auto]].
    + apply (stored_in (xm t) (sX t) (sN t ++ sD t)); [apply W|apply (wf_pos4 t W)|]. exact Hx.
    + apply (stored_in (ym t) (sY t) (sN t ++ sD t)); [apply W|apply (wf_pos4 t W)|]. exact Hy.
Qed.
Lemma zsub bx by_ bn S z u F : spos S -> zval z -> wv bx by_ bn S u F -> exists w, py OSub z u = Ok w /\ wv bx by_ bn S w (fun x y n d => - F x y n d).
Proof.
  intros PS Z [Fu Nu Tu Xu Yu Eu]. destruct (zval_inv z Z) as [s ->]. destruct u as [c|a|t|g]; [destruct Fu|destruct Fu| |]; unfold py; cbn [direct]; unfold tbin; cbv beta iota.
  - destruct (zsub_T S s t Z Fu) as (r & Er & Fr & De & N1 & N2). exists (PT r). split; [exact Er|]. pose proof De as (E1 & E2 & E3 & E4 & _). cbn [dneg dmap xs ys ns ds] in E1, E2, E3, E4.
    cbn [vden] in *. constructor; cbn [vden]; auto.
    + destruct Nu as [A B]. split; congruence.
    + intros x y n d Hi. rewrite (dsame_at S _ _ x y n d De); auto; [|apply wf_dpos, Fr|now apply fits_dbelow]. rewrite <- (Tu x y n d Hi). reflexivity.
    + congruence.
    + congruence.
    + intros H. destruct (Eu H). split; congruence.
  - destruct (gneg_items S (els g) PS Fu) as (es' & E & A & Sh & V). destruct Nu as (G1 & G2 & G3 & G4 & G5 & G6). destruct (neg_nd S _ _ _ _ Fu G3 E) as [N' L'].
    assert (NE' : es' <> []) by (destruct es'; [destruct (els g); [congruence|discriminate]|discriminate]).
    assert (EA : absorb es' (IT s) ADD (Ok (IT s)) = Ok es').
    { destruct es' as [|e' es']; [congruence|]. inversion A as [|? ? (t' & -> & Ft') A']; subst. cbn [absorb item_bin tbin1]. rewrite (tadd_zero t' s Z). reflexivity. }
    unfold gbin1. rewrite E. cbn [rbind]. rewrite EA. cbn [rbind rmap]. eexists. split; [reflexivity|].
    assert (Zd : xd s = 0%nat /\ yd s = 0%nat /\ nn s = 0%nat /\ dm s = 0%nat) by (destruct Z as (z' & Ez & _ & _ & Q1 & Q2 & Q3 & Q4 & _); injection Ez as <-; auto). destruct Zd as (Z1 & Z2 & Z3 & Z4).
    set (g' := mkG _ _ _ _ _). assert (SG : shape_of (gden g') = shape_of (gden g)) by (rewrite !shape_gden; exact Sh).
    pose proof (f_equal SX SG : xs (gden g') = xs (gden g)) as X1. pose proof (f_equal SY SG : ys (gden g') = ys (gden g)) as X2.
    pose proof (f_equal SN SG : ns (gden g') = ns (gden g)) as X3. pose proof (f_equal SD SG : ds (gden g') = ds (gden g)) as X4. cbn [vden] in *.
    constructor; cbn [vden]; auto.
    + cbn [vnd]. rewrite X1, X2. unfold g'. cbn [gn gd els gx gy]. rewrite Z1, Z2, Z3, Z4, !Nat.max_0_r. auto 10.
    + intros x y n d Hi. rewrite <- (Tu x y n d Hi), !get_gden. unfold g'. cbn [els]. apply (V S Fu); auto.
    + congruence.
    + congruence.
    + intros H. rewrite X3, X4. now apply Eu.
Qed.

(** *** running a loop *)
Lemma rmapM_all {A B} (f : A -> res B) (P : nat -> B -> Prop) : forall l (k : nat), (forall i a, nth_error l i = Some a -> exists b, f a = Ok b /\ P (k + i)%nat b) ->
  exists bs, rmapM f l = Ok bs /\ length bs = length l /\ forall i b, nth_error bs i = Some b -> P (k + i)%nat b.
Proof.
  induction l as [|a l IH]; intros k H; cbn [rmapM].
  - exists []. split; [reflexivity|]. split; [reflexivity|]. intros [|i] b Hb; discriminate.
  - destruct (H O a eq_refl) as (b & Eb & Pb). rewrite Eb. cbn [rbind]. destruct (IH (S k)) as (bs & E & L & Q).
    { intros i a' Hi. destruct (H (S i) a' Hi) as (b' & E' & P'). exists b'. split; [exact E'|]. replace (S k + i)%nat with (k + S i)%nat by lia. exact P'. }
    rewrite E. cbn [rbind]. exists (b :: bs). split; [reflexivity|]. split; [cbn; congruence|]. intros [|i] b' Hb; cbn in Hb.
    + injection Hb as <-. exact Pb.
    + replace (k + S i)%nat with (S k + i)%nat by lia. now apply Q.
Qed.
Lemma rmapM_nth {A B} (f : A -> res B) (P : nat -> B -> Prop) l : (forall i a, nth_error l i = Some a -> exists b, f a = Ok b /\ P i b) ->
  exists bs, rmapM f l = Ok bs /\ length bs = length l /\ forall i b, nth_error bs i = Some b -> P i b.
Proof. intros H. destruct (rmapM_all f P l 0 H) as (bs & E & L & Q). exists bs. auto. Qed.
Lemma nth_error_seq i k n j : nth_error (seq k n) i = Some j -> j = (k + i)%nat /\ (i < n)%nat.
Proof.
  intros H. assert (L : (i < n)%nat) by (rewrite <- (seq_length n k); apply nth_error_Some; congruence). split; [|exact L].
  apply nth_error_nth with (d := O) in H. rewrite seq_nth in H by exact L. congruence.
Qed.
Lemma triangle_ok n block (P : nat -> nat -> pval -> Prop) : (forall i j, (i < n)%nat -> (j <= i)%nat -> exists v, block i j = Ok v /\ P i j v) ->
  exists hs, LTModel.triangle n block = Ok hs /\ length hs = n /\ forall i j, (i < n)%nat -> (j <= i)%nat -> exists v, rnth2 hs i j = Ok v /\ P i j v.
Proof.
  intros H. destruct (rmapM_nth (fun i => rmapM (block i) (seq 0 (S i))) (fun i r => length r = S i /\ forall j v, nth_error r j = Some v -> P i j v) (seq 0 n)) as (hs & E & L & Q).
  - intros i a Ha. apply nth_error_seq in Ha as [-> Hi]. cbn [Nat.add]. destruct (rmapM_nth (block i) (fun j v => P i j v) (seq 0 (S i))) as (r & Er & Lr & Qr).
    + intros j b Hb. apply nth_error_seq in Hb as [-> Hj]. cbn [Nat.add]. apply H; lia.
    + exists r. rewrite seq_length in Lr. auto.
  - exists hs. split; [exact E|]. rewrite seq_length in L. split; [exact L|]. intros i j Hi Hj. unfold rnth2, rnth. destruct (nth_error hs i) as [r|] eqn:Er; [|apply nth_error_None in Er; lia].
    cbn [rbind]. destruct (Q i r Er) as [Lr Qr]. destruct (nth_error r j) as [v|] eqn:Ev; [|apply nth_error_None in Ev; lia]. exists v. split; [reflexivity|]. now apply Qr.
Qed.

(** *** the results *)
(** a Tensor without features and dims *)
Definition blk (X Y : list nat) (v : pval) (B : idx -> idx -> R) : Prop :=
  exists t, v = PT t /\ wf t /\ xm t = [] /\ ym t = [] /\ shape_of (den t) = SH X Y [] [] /\
    forall x y, In x (indices X) -> In y (indices Y) -> at_ (den t) x y [] [] = B x y.
Lemma blk_ext X Y v B B' : (forall x y, In x (indices X) -> In y (indices Y) -> B x y = B' x y) -> blk X Y v B -> blk X Y v B'.
Proof. intros H (t & E & W & M1 & M2 & Sh & V). exists t. repeat (split; [assumption|]). intros x y Hx Hy. rewrite V, H; auto. Qed.

Section dat.
Variable dat : pst.
Hypothesis Hp : posl (flat dat).
Hypothesis Hne : flat dat <> [].
Notation N := (fst dat).
Notation D := (snd dat).
Definition tot (f : idx -> idx -> R) : R := Rsum (fun n => Rsum (fun d => f n d) (indices D)) (indices N).
Lemma tot_ext f g : (forall n d, In n (indices N) -> In d (indices D) -> f n d = g n d) -> tot f = tot g.
Proof. intros H. apply Rsum_ext. intros n Hn. apply Rsum_ext. intros d Hd. auto. Qed.
Definition S4 (X Y : list nat) : shape4 := SH X Y N D.
Lemma S4_pos X Y : posl X -> posl Y -> spos (S4 X Y).
Proof. intros PX PY. repeat split; auto; [apply (pN dat Hp)|apply (pD dat Hp)]. Qed.
Lemma S4_ns X Y : nonscalar (S4 X Y). Proof. exact Hne. Qed.
Lemma pl_wv k v F : pl (S k) dat v F -> wv true true (Nat.ltb 0 k) (S4 [] []) v (fun _ _ n d => F n d).
Proof.
  intros (t & -> & Pt & L & V). destruct (plt_fits (S4 [] []) t k (S4_ns _ _) Pt L) as [Ft Nt]. pose proof Pt as (Wt & Xt & Yt). constructor; auto.
  - intros x y n d (Hx & Hy & Hn & Hd). cbn [vden]. rewrite at_plain by exact Pt. now apply V.
  - intros Hk. destruct k; [discriminate|]. exact L.
Qed.
Lemma pl_ssum v F : pl 2 dat v F -> exists w, ssum v = Ok w /\ blk [] [] w (fun _ _ => tot F).
Proof.
  intros P. destruct (wv_sum (S4 [] []) v _ (S4_pos [] [] (Forall_nil _) (Forall_nil _)) (pl_wv 1 v F P)) as (t & Et & Wt & M1 & M2 & Sh & V). exists (PT t). split; [exact Et|].
  exists t. split; [reflexivity|]. repeat (split; [assumption|]). intros x y Hx Hy. apply V; auto.
Qed.
Lemma wv_ssum X Y v F : posl X -> posl Y -> wv true true true (S4 X Y) v F -> exists w, ssum v = Ok w /\ blk X Y w (fun x y => tot (F x y)).
Proof.
  intros PX PY P. destruct (wv_sum (S4 X Y) v _ (S4_pos X Y PX PY) P) as (t & Et & Wt & M1 & M2 & Sh & V). exists (PT t). split; [exact Et|].
  exists t. split; [reflexivity|]. repeat (split; [assumption|]). intros x y Hx Hy. apply V; auto.
Qed.

(** the derivatives of the model at the observations *)
Variable Xs : nat -> list nat.
Hypothesis PXs : forall i, posl (Xs i).
Definition isder (der : list pval) (F : nat -> table) : Prop :=
  forall i d, nth_error der i = Some d -> rep true anyQ (S4 (Xs i) []) d (F i).
Definition ishess (m : nat) (hess : list (list pval)) (H : nat -> nat -> table) : Prop :=
  forall i j, (i < m)%nat -> (j <= i)%nat -> exists h, rnth2 hess i j = Ok h /\ rep false anyQ (S4 (Xs i) (Xs j)) h (H i j).
Definition gradres (m : nat) (r : res (list pval)) (B : nat -> idx -> idx -> R) : Prop :=
  exists gs, r = Ok gs /\ length gs = m /\ forall i v, nth_error gs i = Some v -> blk (Xs i) [] v (B i).
Definition hessres (m : nat) (r : res (list (list pval))) (B : nat -> nat -> idx -> idx -> R) : Prop :=
  exists hs, r = Ok hs /\ length hs = m /\ forall i j, (i < m)%nat -> (j <= i)%nat -> exists v, rnth2 hs i j = Ok v /\ blk (Xs i) (Xs j) v (B i j).

Lemma grad_delta_ok delta G der F : pl 2 dat delta G -> isder der F ->
  gradres (length der) (grad_delta delta der) (fun i x _ => tot (fun n d => F i x [] n d * G n d)).
Proof.
  intros Pd Hd. destruct (rmapM_nth (fun d => let! w := py OMul d delta in ssum w) (fun i v => blk (Xs i) [] v (fun x _ => tot (fun n d => F i x [] n d * G n d))) der) as (gs & E & L & Q).
  - intros i d Hi. pose proof (S4_pos (Xs i) [] (PXs i) (Forall_nil _)) as PS. pose proof (rep_wv _ _ _ _ PS (S4_ns _ _) (Hd i d Hi)) as W.
    destruct (wv_md OMul _ _ _ 1 _ d delta _ G PS (S4_ns _ _) (or_introl eq_refl) W Pd) as (w & Ew & Ww). rewrite Ew. cbn [rbind orb Nat.ltb Nat.leb] in *.
    destruct (wv_ssum _ _ w _ (PXs i) (Forall_nil _) Ww) as (v & Ev & Bv). exists v. split; [exact Ev|]. eapply blk_ext; [|exact Bv]. intros x y Hx Hy. cbn [indices] in Hy. destruct Hy as [<-|[]]. reflexivity.
  - exists gs. auto.
Qed.
Lemma outer2_ok der F i j : isder der F -> (i < length der)%nat -> (j < length der)%nat ->
  exists q, outer2 der i j = Ok q /\ rep true anyQ (S4 (Xs i) (Xs j)) q (fun x y n d => F i x [] n d * F j y [] n d).
Proof.
  intros Hd Hi Hj. unfold outer2, rnth. destruct (nth_error der i) as [di|] eqn:Ei; [|apply nth_error_None in Ei; lia]. destruct (nth_error der j) as [dj|] eqn:Ej; [|apply nth_error_None in Ej; lia]. cbn [rbind].
  destruct (rtrans _ _ _ _ _ (Hd j dj Ej)) as (tj & Et & Rt). rewrite Et. cbn [rbind].
  destruct (router _ _ (S4 (Xs i) (Xs j)) di tj (F i) (transT (F j)) (S4_pos _ _ (PXs i) (PXs j)) (S4_ns _ _) (Hd i di Ei) Rt) as (w & Ew & Rw). exists w. split; [exact Ew|exact Rw].
Qed.
Lemma hess_delta_ok o delta delta2 G G2 der hess F H : o = OAdd \/ o = OSub -> pl 2 dat delta G -> pl 2 dat delta2 G2 -> isder der F -> ishess (length der) hess H ->
  hessres (length der) (hess_delta o delta delta2 der hess) (fun i j x y => tot (fun n d => rop o (H i j x y n d * G n d) (F i x [] n d * F j y [] n d * G2 n d))).
Proof.
  intros Ho P1 P2 Hd Hh. unfold hessres, hess_delta. apply triangle_ok. intros i j Hi Hj. destruct (Hh i j Hi Hj) as (h & Eh & Rh). rewrite Eh. cbn [rbind].
  pose proof (S4_pos (Xs i) (Xs j) (PXs i) (PXs j)) as PS. pose proof (S4_ns (Xs i) (Xs j)) as NS.
  assert (A : exists a b1 b2, py OMul h delta = Ok a /\ wv b1 b2 true (S4 (Xs i) (Xs j)) a (fun x y n d => H i j x y n d * G n d)).
  { destruct Rh as [(_ & Z & T0)|R1].
    - destruct (zval_mul 1 (S4 (Xs i) (Xs j)) h delta G PS NS Z P1) as (a & Ea & Wa). exists a, false, false. split; [exact Ea|]. eapply wv_ext; [|exact Wa]. intros x y n d Hx. rewrite T0 by exact Hx. ring.
    - pose proof (rep_wv anyQ _ h _ PS NS (or_intror R1)) as W. destruct (wv_md OMul _ _ _ 1 _ h delta _ G PS NS (or_introl eq_refl) W P1) as (a & Ea & Wa). exists a, true, true. split; [exact Ea|exact Wa]. }
  destruct A as (a & b1 & b2 & Ea & Wa). rewrite Ea. cbn [rbind].
  destruct (outer2_ok der F i j Hd Hi ltac:(lia)) as (q & Eq & Rq). rewrite Eq. cbn [rbind].
  pose proof (rep_wv _ _ q _ PS NS Rq) as Wq. destruct (wv_md OMul _ _ _ 1 _ q delta2 _ G2 PS NS (or_introl eq_refl) Wq P2) as (b & Eb & Wb). rewrite Eb. cbn [rbind].
  destruct (wv_as o _ _ _ _ _ _ _ a b _ _ PS Ho Wa Wb) as (w & Ew & Ww). rewrite Ew. cbn [rbind].
  rewrite !orb_true_r in Ww. apply (wv_ssum _ _ w _ (PXs i) (PXs j) Ww).
Qed.
(** (h - q / y) / y *)
Lemma log_hess_ok h q y X Y H Q Yv : posl X -> posl Y -> rep false anyQ (S4 X Y) h H -> rep true anyQ (S4 X Y) q Q -> pl 1 dat y Yv ->
  exists w, log_hess h q y = Ok w /\ wv true true false (S4 X Y) w (fun x y n d => (H x y n d - Q x y n d / Yv n d) / Yv n d).
Proof.
  intros PX PY Rh Rq Py. pose proof (S4_pos X Y PX PY) as PS. pose proof (S4_ns X Y) as NS. unfold log_hess.
  pose proof (rep_wv _ _ q _ PS NS Rq) as Wq. destruct (wv_md ODiv _ _ _ 0 _ q y _ Yv PS NS (or_intror eq_refl) Wq Py) as (a & Ea & Wa). rewrite Ea. cbn [rbind orb Nat.ltb Nat.leb] in *.
  assert (B : exists b, py OSub h a = Ok b /\ wv true true false (S4 X Y) b (fun x y n d => H x y n d - Q x y n d / Yv n d)).
  { destruct Rh as [(_ & Z & T0)|R1].
    - destruct (zsub _ _ _ (S4 X Y) h a _ PS Z Wa) as (b & Eb & Wb). exists b. split; [exact Eb|]. eapply wv_ext; [|exact Wb]. intros x y0 n d Hx. rewrite T0 by exact Hx. cbn [rop]. ring.
    - pose proof (rep_wv anyQ _ h _ PS NS (or_intror R1)) as W. destruct (wv_as OSub _ _ _ _ _ _ _ h a _ _ PS (or_intror eq_refl) W Wa) as (b & Eb & Wb). exists b. split; [exact Eb|exact Wb]. }
  destruct B as (b & Eb & Wb). rewrite Eb. cbn [rbind]. destruct (wv_md ODiv _ _ _ 0 _ b y _ Yv PS NS (or_intror eq_refl) Wb Py) as (w & Ew & Ww). exists w. split; [exact Ew|exact Ww].
Qed.
End dat.
End ex.
