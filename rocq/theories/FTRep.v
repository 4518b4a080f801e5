(** When a Tensor or GenericTensor stands for a table of numbers of a given
    shape.  Used to relate the tensor computations of FTModel.v with the dense
    ones of FuncModel.v. *)
From Verif Require Import Prelude DenseModel AnalyticSpec DenseProofs NDArray NDProofs TensorModel TensorSpec TensorSpecOps TensorLemmas TensorBasic TensorSum TensorSumMain TensorBin TensorArith TensorShape TensorExpand TensorGeneric TensorGSum TensorDotCore TensorDot TensorUfunc TensorUfuncP FuncModel FTModel.
From Coq Require Import Reals Lra.
Import List ListNotations.
Open Scope R_scope.

(** Whether the dim axes of derivatives are stored in full, or possibly with size
    1.  The whole development holds for both; see tb_sum in FTBuilt.v. *)
Class exdims := is_exact : bool.
Section ex.
Context {ex : exdims}.

(** every x and y axis is a diagonal *)
Definition tmapped (t : tensor) : Prop := length (targets (xm t)) = xd t /\ length (targets (ym t)) = yd t.
(** stored and full dim axes *)
Definition DR (a b : list nat) : Prop := if is_exact then a = b else le1 a b.
(** a Tensor that has every axis of [S]; features (and dim axes, unless exact)
    possibly stored with size 1 *)
Record xfits (S : shape4) (t : tensor) : Prop := mkXf {
  xf_wf : wf t; xf_feat : to_features t; xf_map : tmapped t;
  xf_xe : xs (den t) = SX S; xf_ye : ys (den t) = SY S;
  xf_n : le1 (sN t) (SN S); xf_dr : DR (sD t) (SD S);
  xf_full : forall f, In f (targets (xm t)) \/ In f (targets (ym t)) -> nth f (sN t) 1%nat = nth f (SN S) 1%nat }.
Lemma bmax_same a : bmax a a = a.
Proof. induction a as [|k a IH]; [reflexivity|]. cbn. now rewrite IH, Nat.max_id. Qed.
Lemma le1_same a : le1 a a.
Proof. induction a; constructor; auto. Qed.
Lemma DR_le1 a b : DR a b -> le1 a b.
Proof. unfold DR. destruct is_exact; [intros ->; apply le1_same|auto]. Qed.
Lemma DR_same a : DR a a.
Proof. unfold DR. destruct is_exact; [reflexivity|apply le1_same]. Qed.
Lemma DR_trans a b c : DR a b -> DR b c -> (le1 a b -> le1 b c -> le1 a c) -> DR a c.
Proof. unfold DR. destruct is_exact; [congruence|auto]. Qed.
Lemma DR_bmax a b c : DR a c -> DR b c -> le1 (bmax a b) c -> DR (bmax a b) c.
Proof. unfold DR. destruct is_exact; [intros -> -> _; apply bmax_same|auto]. Qed.
Lemma xf_d S t : xfits S t -> le1 (sD t) (SD S).
Proof. intros H. exact (DR_le1 _ _ (xf_dr _ _ H)). Qed.
Lemma xf_x S t : xfits S t -> le1 (xs (den t)) (SX S).
Proof. intros H. rewrite (xf_xe _ _ H). apply le1_same. Qed.
Lemma xf_y S t : xfits S t -> le1 (ys (den t)) (SY S).
Proof. intros H. rewrite (xf_ye _ _ H). apply le1_same. Qed.
Definition nonscalar (S : shape4) : Prop := SN S ++ SD S <> [].
(** a condition on the maps *)
Definition mcond := (list (option nat) -> list (option nat) -> Prop).
Definition tfit (Q : mcond) (S : shape4) (t : tensor) : Prop := xfits S t /\ Q (xm t) (ym t).
Definition ifit (Q : mcond) (S : shape4) (e : item) : Prop := exists t, e = IT t /\ tfit Q S t.
Definition pf (Q : mcond) (S : shape4) (v : pval) : Prop :=
  match v with
  | PT t => tfit Q S t /\ is_zero0 (tv t) = false
  | PG g => els g <> [] /\ Forall (ifit Q S) (els g) /\ nonscalar S /\
            gx g = length (SX S) /\ gy g = length (SY S) /\ gn g = length (SN S) /\ gd g = length (SD S)
  | _ => False
  end.
(** Tensor(0) *)
Definition zval (v : pval) : Prop :=
  exists t, v = PT t /\ shp (tv t) = [] /\ el (tv t) [] = 0 /\
    xd t = 0%nat /\ yd t = 0%nat /\ nn t = 0%nat /\ dm t = 0%nat /\ xm t = [] /\ ym t = [].
Definition table := (idx -> idx -> idx -> idx -> R).
Definition tabeq (S : shape4) (F G : table) : Prop := forall x y n d, at_shape S x y n d -> F x y n d = G x y n d.
(** [rep nz Q S v F]: the value [v] represents the table [F] of shape [S]; if
    [nz] it is not the number Tensor(0) *)
Definition rep (nz : bool) (Q : mcond) (S : shape4) (v : pval) (F : table) : Prop :=
  (nz = false /\ zval v /\ tabeq S F (fun _ _ _ _ => 0)) \/
  (pf Q S v /\ tabeq S (get (vden v)) F).

(** *** basics *)
Lemma le1_below a b : le1 a b -> below a b.
Proof. now right. Qed.
Lemma le1_len a b : le1 a b -> length a = length b.
Proof. apply Forall2_length'. Qed.
Lemma xfits_rank S t : xfits S t -> nonscalar S -> shp (tv t) <> [].
Proof.
  intros X N E. apply (rank_groups t (xf_wf _ _ X)) in E as (_ & _ & E3 & E4). apply N.
  pose proof (le1_len _ _ (xf_n _ _ X)) as L1. pose proof (le1_len _ _ (xf_d _ _ X)) as L2.
  change (sN t) with (ns (den t)) in L1. change (sD t) with (ds (den t)) in L2. rewrite E3 in L1. rewrite E4 in L2.
  destruct (SN S), (SD S); try discriminate. reflexivity.
Qed.
Lemma xfits_fits S t : xfits S t -> nonscalar S -> fits S t.
Proof.
  intros X N. pose proof (xf_x _ _ X) as A'. pose proof (xf_y _ _ X) as B'. pose proof X as [W T M A B C D F]. constructor; auto using le1_below, DR_le1. now apply (xfits_rank S).
Qed.
Lemma xfits_dbelow S t : xfits S t -> dbelow S (den t).
Proof. intros X. pose proof (xf_x _ _ X) as A'. pose proof (xf_y _ _ X) as B'. destruct X as [W T M A B C D F]. constructor; auto using le1_below, DR_le1. Qed.
Lemma rank_not_zero t : shp (tv t) <> [] -> is_zero0 (tv t) = false.
Proof. unfold is_zero0. destruct (shp (tv t)); [congruence|reflexivity]. Qed.
Lemma zval_zero0 t : zval (PT t) -> is_zero0 (tv t) = true.
Proof. intros (t' & E & S0 & V & _). injection E as <-. unfold is_zero0. rewrite S0. destruct (Req_EM_T _ 0); congruence. Qed.
Lemma zval_tnum : zval (PT (tnum 0)).
Proof. exists (tnum 0). repeat split. Qed.
Lemma zval_get v x y n d : zval v -> get (vden v) x y n d = 0.
Proof.
  intros (t & -> & S0 & V & X & Y & N & D & Mx & My). cbn [vden]. unfold get, den; cbn [xs ys ns ds at_]. unfold sX, sY, sN, sD.
  rewrite S0, X, Y, N, Mx, My. cbn. rewrite V. ring.
Qed.
Lemma zval_inv v : zval v -> exists t, v = PT t.
Proof. intros (t & -> & _). eauto. Qed.
(** value of a nonzero representation at an index *)
Lemma rep_get nz Q S v F x y n d : rep nz Q S v F -> at_shape S x y n d -> get (vden v) x y n d = F x y n d.
Proof.
  intros [(_ & Z & E)|(_ & E)] H; [rewrite (E x y n d H); now apply zval_get|now apply E].
Qed.
Lemma rep_ext nz Q S v F G : rep nz Q S v F -> tabeq S F G -> rep nz Q S v G.
Proof.
  intros [(A & Z & E)|(P & E)] H; [left|right]; repeat split; auto.
  - intros x y n d Hi. rewrite <- H by auto. now apply E.
  - intros x y n d Hi. rewrite E by auto. now apply H.
Qed.
Lemma rep_weaken nz (Q Q' : mcond) S v F : (forall a b, Q a b -> Q' a b) -> rep nz Q S v F -> rep nz Q' S v F.
Proof.
  intros HQ [A|(P & E)]; [now left|right; split; auto]. destruct v as [| |t|g]; cbn in *; auto.
  - unfold tfit in *. intuition.
  - destruct P as (N & A & R). split; [auto|]. split; [|exact R]. eapply Forall_impl; [|exact A]. intros e (t & -> & X & q). exists t. split; auto. split; auto.
Qed.
Lemma rep_nz Q S v F : rep true Q S v F -> pf Q S v /\ tabeq S (get (vden v)) F.
Proof. intros [(A & _)|H]; [discriminate|exact H]. Qed.
Lemma rep_false nz Q S v F : rep nz Q S v F -> rep false Q S v F.
Proof. intros [(A & Z)|H]; [left; tauto|now right]. Qed.
Lemma rep_zero Q S v F : zval v -> tabeq S F (fun _ _ _ _ => 0) -> rep false Q S v F.
Proof. intros. now left. Qed.

Lemma nth_le1 a b f : le1 a b -> (f < length a)%nat -> nth f a 1%nat = 1%nat \/ nth f a 1%nat = nth f b 1%nat.
Proof. intros H. revert f; induction H; intros [|f] L; cbn in *; try lia; auto. apply IHForall2; lia. Qed.
Lemma le1_nth a b : length a = length b -> (forall f, (f < length a)%nat -> nth f a 1%nat = 1%nat \/ nth f a 1%nat = nth f b 1%nat) -> le1 a b.
Proof.
  revert b; induction a as [|s a IH]; intros [|s' b] E H; try discriminate; constructor.
  - apply (H 0%nat); cbn; lia.
  - apply IH; [now injection E|]. intros f Hf. apply (H (Datatypes.S f)); cbn; lia.
Qed.
Lemma feat_lt t f : wf t -> to_features t -> In f (targets (xm t)) \/ In f (targets (ym t)) -> (f < length (sN t))%nat.
Proof.
  intros W [Tx Ty] Hf. rewrite (g_n _ _ _ _ _ (wf_groups t W)).
  destruct Hf as [Hf|Hf]; [exact (proj1 (Forall_forall _ _) Tx f Hf)|exact (proj1 (Forall_forall _ _) Ty f Hf)].
Qed.
Lemma den_x_len t : wf t -> length (xs (den t)) = xd t /\ length (ys (den t)) = yd t.
Proof. intros W. pose proof (wf_groups t W) as G. cbn [den xs ys]. rewrite !msizes_length, (g_x _ _ _ _ _ G), (g_y _ _ _ _ _ G). auto. Qed.

(** *** sums *)
(** two tensors with the same maps *)
Lemma xadd_same S s o : spos S -> nonscalar S -> xfits S s -> xfits S o -> xm s = xm o -> ym s = ym o ->
  exists r, tbin_t s o ADD = Ok (PT r) /\ xfits S r /\ xm r = xm s /\ ym r = ym s /\
    tabeq S (get (den r)) (fun x y n d => get (den s) x y n d + get (den o) x y n d).
Proof.
  intros PS NS Xs Xo Ex Ey. pose proof (xfits_fits _ _ Xs NS) as Fs. pose proof (xfits_fits _ _ Xo NS) as Fo.
  assert (C : compat s o) by (apply (fits_compat S); auto; apply PS).
  destruct (tadd_same s o ADD) as (r & Er & Wr & Tr & Mx & My & De); try apply Fs; try apply Fo; auto.
  assert (Fr : fits S r) by (apply (fits_result S s r (op_fun ADD) o); auto).
  exists r. unfold tbin_t. rewrite Er. destruct (shp (tv o)) as [|s0 sh0] eqn:So; [now apply (xfits_rank S o) in Xo|].
  split; [reflexivity|]. split; [|split; [exact Mx|split; [exact My|]]].
  - pose proof De as (E1 & E2 & E3 & E4 & _). cbn [dbin xs ys ns ds] in E1, E2, E3, E4. destruct PS as (PX & PY & PN & PD).
    constructor; auto.
    + destruct (xf_map _ _ Xs) as [M1 M2]. destruct (den_x_len r Wr) as [L1 L2]. destruct (den_x_len s (ft_wf _ _ Fs)) as [L3 L4].
      split; [rewrite Mx, M1, <- L1, E1, <- L3|rewrite My, M2, <- L2, E2, <- L4]; symmetry.
      * rewrite bmax_comm. apply bmax_length. rewrite (le1_len _ _ (xf_x _ _ Xs)), (le1_len _ _ (xf_x _ _ Xo)). reflexivity.
      * rewrite bmax_comm. apply bmax_length. rewrite (le1_len _ _ (xf_y _ _ Xs)), (le1_len _ _ (xf_y _ _ Xo)). reflexivity.
    + rewrite E1, (xf_xe _ _ Xs), (xf_xe _ _ Xo). apply bmax_same.
    + rewrite E2, (xf_ye _ _ Xs), (xf_ye _ _ Xo). apply bmax_same.
    + change (sN r) with (ns (den r)). rewrite E3. apply le1_bmax; auto; [apply Xs|apply Xo].
    + change (sD r) with (ds (den r)). rewrite E4. apply DR_bmax; [exact (xf_dr _ _ Xs)|exact (xf_dr _ _ Xo)|]. apply le1_bmax; auto; [exact (xf_d _ _ Xs)|exact (xf_d _ _ Xo)].
    + apply Fr.
  - intros x y n d Hi. rewrite (dsame_at S _ _ x y n d De); auto; [|apply wf_dpos, Wr|now apply fits_dbelow]. now rewrite get_dbin.
Qed.
(** two tensors: merged, or a formal sum *)
Lemma xadd Q S s o : spos S -> nonscalar S -> tfit Q S s -> tfit Q S o ->
  (exists r, tbin_t s o ADD = Ok (PT r) /\ tfit Q S r /\ tabeq S (get (den r)) (fun x y n d => get (den s) x y n d + get (den o) x y n d)) \/
  tbin_t s o ADD = Ok (PG (mkG (length (SX S)) (length (SY S)) (length (SN S)) (length (SD S)) [IT s; IT o])).
Proof.
  intros PS NS [Xs Qs] [Xo Qo]. destruct (map_eqb (xm s) (xm o) && map_eqb (ym s) (ym o)) eqn:EM.
  - left. apply andb_true_iff in EM as [E1 E2]. apply map_eqb_eq in E1, E2. destruct (xadd_same S s o PS NS Xs Xo E1 E2) as (r & Er & Xr & Mx & My & V).
    exists r. split; [exact Er|]. split; [split; auto; now rewrite Mx, My|exact V].
  - right. pose proof (xfits_rank _ _ Xs NS) as Rs. pose proof (xfits_rank _ _ Xo NS) as Ro.
    unfold tbin_t. destruct (shp (tv o)) eqn:So; [congruence|]. unfold tbin_tensor. destruct (shp (tv s)) eqn:Ss; [congruence|].
    destruct (den_x_len s (xf_wf _ _ Xs)) as [L1 L2]. destruct (den_x_len o (xf_wf _ _ Xo)) as [L3 L4].
    pose proof (wf_groups s (xf_wf _ _ Xs)) as Gs. pose proof (wf_groups o (xf_wf _ _ Xo)) as Go.
    assert (A1 : xd s = length (SX S)) by (rewrite <- L1; apply le1_len, (xf_x _ _ Xs)).
    assert (A2 : yd s = length (SY S)) by (rewrite <- L2; apply le1_len, (xf_y _ _ Xs)).
    assert (A3 : nn s = length (SN S)) by (rewrite <- (g_n _ _ _ _ _ Gs); apply le1_len, Xs).
    assert (A4 : dm s = length (SD S)) by (rewrite <- (g_d _ _ _ _ _ Gs); apply le1_len, (xf_d _ _ Xs)).
    assert (B1 : xd o = length (SX S)) by (rewrite <- L3; apply le1_len, (xf_x _ _ Xo)).
    assert (B2 : yd o = length (SY S)) by (rewrite <- L4; apply le1_len, (xf_y _ _ Xo)).
    assert (B3 : nn o = length (SN S)) by (rewrite <- (g_n _ _ _ _ _ Go); apply le1_len, Xo).
    assert (B4 : dm o = length (SD S)) by (rewrite <- (g_d _ _ _ _ _ Go); apply le1_len, (xf_d _ _ Xo)).
    rewrite A1, A2, A3, A4, B1, B2, B3, B4. unfold dims_ok. rewrite !Nat.eqb_refl, !orb_true_r. cbn [py_assert rbind additive]. rewrite EM, !Nat.max_id. reflexivity.
Qed.

Lemma absorb_x Q S o : spos S -> nonscalar S -> tfit Q S o -> forall es, Forall (ifit Q S) es ->
  exists es', absorb es (IT o) ADD (Ok (IT o)) = Ok es' /\ Forall (ifit Q S) es' /\ es' <> [] /\
    forall x y n d, at_shape S x y n d -> gsum_at es' x y n d = gsum_at es x y n d + get (den o) x y n d.
Proof.
  intros PS NS Fo. induction es as [|e es IH]; intros A; cbn [absorb rbind].
  - exists [IT o]. split; [reflexivity|]. split; [constructor; [exists o; auto|constructor]|]. split; [discriminate|].
    intros. unfold gsum_at. rewrite Rsum_cons, !Rsum_nil. cbn [iden]. ring.
  - inversion A as [|? ? (t & -> & Ft) A']; subst. cbn [item_bin tbin1]. destruct (xadd Q S t o PS NS Ft Fo) as [(r & Er & Fr & V)|Eg].
    + rewrite Er. cbn [rbind]. exists (IT r :: es). split; [reflexivity|]. split; [constructor; [exists r; auto|exact A']|]. split; [discriminate|].
      intros x y n d Hi. unfold gsum_at. rewrite !Rsum_cons. cbn [iden]. rewrite (V x y n d Hi). ring.
    + rewrite Eg. cbn [rbind]. destruct (IH A') as (es' & E & F' & _ & V'). rewrite E. cbn [rbind]. exists (IT t :: es'). split; [reflexivity|].
      split; [constructor; [exists t; auto|exact F']|]. split; [discriminate|].
      intros x y n d Hi. unfold gsum_at in *. rewrite !Rsum_cons, V' by auto. ring.
Qed.
Definition gle (S : shape4) (g : gtensor) : Prop :=
  (gx g <= length (SX S) /\ gy g <= length (SY S) /\ gn g <= length (SN S) /\ gd g <= length (SD S))%nat.
Lemma xfits_dims S t : xfits S t -> xd t = length (SX S) /\ yd t = length (SY S) /\ nn t = length (SN S) /\ dm t = length (SD S).
Proof.
  intros X. destruct (den_x_len t (xf_wf _ _ X)) as [L1 L2]. pose proof (wf_groups t (xf_wf _ _ X)) as G.
  rewrite <- L1, <- L2, <- (g_n _ _ _ _ _ G), <- (g_d _ _ _ _ _ G). split; [apply le1_len, (xf_x _ _ X)|]. split; [apply le1_len, (xf_y _ _ X)|]. split; apply le1_len; [apply X|exact (xf_d _ _ X)].
Qed.
Lemma gadd1 Q S g o : spos S -> nonscalar S -> Forall (ifit Q S) (els g) -> gle S g -> tfit Q S o ->
  exists g', gbin1 g (IT o) ADD = Ok g' /\ pf Q S (PG g') /\
    tabeq S (get (gden g')) (fun x y n d => get (gden g) x y n d + get (den o) x y n d).
Proof.
  intros PS NS A (L1 & L2 & L3 & L4) Fo. destruct (absorb_x Q S o PS NS Fo (els g) A) as (es' & E & F' & N' & V).
  unfold gbin1. cbn zeta. rewrite E. cbn [rbind]. eexists. split; [reflexivity|].
  destruct (xfits_dims S o (proj1 Fo)) as (D1 & D2 & D3 & D4). split.
  - cbn [pf els gx gy gn gd]. repeat split; auto; lia.
  - intros x y n d Hi. rewrite !get_gden. cbn [els]. now apply V.
Qed.
Lemma pf_gle Q S g : pf Q S (PG g) -> Forall (ifit Q S) (els g) /\ gle S g.
Proof. intros (N & A & NS & E1 & E2 & E3 & E4). split; [exact A|]. repeat split; lia. Qed.
Lemma gaddl Q S h : spos S -> nonscalar S -> Forall (ifit Q S) h -> forall g, Forall (ifit Q S) (els g) -> gle S g -> (els g <> [] -> pf Q S (PG g)) ->
  exists g', ofold (fun acc e => gbin1 acc e ADD) h g = Ok g' /\ gle S g' /\ Forall (ifit Q S) (els g') /\ (els g <> [] \/ h <> [] -> pf Q S (PG g')) /\
    tabeq S (get (gden g')) (fun x y n d => get (gden g) x y n d + gsum_at h x y n d).
Proof.
  intros PS NS. induction h as [|e h IH]; intros A g Ag Lg Pg; cbn [ofold].
  - exists g. split; [reflexivity|]. split; [exact Lg|]. split; [exact Ag|]. split; [intros [Hg|Hg]; [auto|congruence]|]. intros x y n d Hi. unfold gsum_at. rewrite Rsum_nil. ring.
  - inversion A as [|? ? (t & -> & Ft) A']; subst. destruct (gadd1 Q S g t PS NS Ag Lg Ft) as (g1 & E1 & P1 & V1). rewrite E1. cbn [rbind].
    destruct (pf_gle Q S g1 P1) as [A1 L1]. destruct (IH A' g1 A1 L1 (fun _ => P1)) as (g' & E & Lg' & Ag' & P' & V').
    exists g'. split; [exact E|]. split; [exact Lg'|]. split; [exact Ag'|]. split.
    + intros _. apply P'. left. apply P1.
    + intros x y n d Hi. rewrite (V' x y n d Hi), (V1 x y n d Hi). unfold gsum_at. rewrite Rsum_cons. cbn [iden]. ring.
Qed.
(** adding Tensor(0), or the number 0 *)
Lemma tadd_zero t z : zval (PT z) -> tbin_t t z ADD = Ok (PT t).
Proof.
  intros (z' & E & S0 & V & _). injection E as <-. unfold tbin_t. rewrite S0. unfold tbin_num. rewrite V. destruct (Req_EM_T 0 0); [reflexivity|congruence].
Qed.
Lemma tadd_num0 t : tbin_num t 0 ADD = Ok t.
Proof. unfold tbin_num. destruct (Req_EM_T 0 0); [reflexivity|congruence]. Qed.
Lemma gadd_zero Q S g z : pf Q S (PG g) -> zval (PT z) -> gbin1 g (IT z) ADD = Ok g.
Proof.
  intros (N & A & NS & E1 & E2 & E3 & E4) Z. unfold gbin1. cbn zeta. destruct g as [x y n d es]; cbn [els gx gy gn gd] in *.
  destruct es as [|e es]; [congruence|]. inversion A as [|? ? (t & -> & Ft) A']; subst. cbn [absorb item_bin tbin1]. rewrite (tadd_zero t z Z). cbn [rbind].
  destruct Z as (z' & Ez & _ & _ & Zx & Zy & Zn & Zd & _). injection Ez as <-. rewrite Zx, Zy, Zn, Zd, !Nat.max_0_r. reflexivity.
Qed.
Lemma gadd_num0 Q S g : pf Q S (PG g) -> gbin1 g (INum 0) ADD = Ok g.
Proof.
  intros (N & A & _). unfold gbin1. cbn zeta. destruct g as [x y n d es]; cbn [els gx gy gn gd] in *.
  destruct es as [|e es]; [congruence|]. inversion A as [|? ? (t & -> & Ft) A']; subst. cbn [absorb item_bin tbin1]. rewrite tadd_num0. reflexivity.
Qed.
(** same axes and maps, other values *)
Lemma xfits_retensor S t v : xfits S t -> shp v = shp (tv t) ->
  exists r, Tensor v (xd t) (yd t) (dm t) (xm t) (ym t) = Ok r /\ xfits S r /\ xm r = xm t /\ ym r = ym t /\ tv r = v.
Proof.
  intros X E. destruct (retensor t v (xf_wf _ _ X) E) as (r & Er & Wr & D1 & D2 & D3 & D4 & Mx & My & Ev & E1 & E2 & E3 & E4).
  exists r. split; [exact Er|]. split; [|auto]. cbn [den ns ds] in E3, E4. destruct X as [W T M A B C D F]. constructor; auto.
  - unfold to_features. rewrite Mx, My, D3. exact T.
  - unfold tmapped. rewrite Mx, My, D1, D2. exact M.
  - now rewrite E1.
  - now rewrite E2.
  - now rewrite E3.
  - now rewrite E4.
  - rewrite Mx, My, E3. exact F.
Qed.
(** get of a tensor with same maps and sizes: entries of the stored array *)
Lemma get_den t x y n d : wf t -> get (den t) x y n d =
  el (tv t) (stored (xm t) (clamp (xs (den t)) x) ++ stored (ym t) (clamp (ys (den t)) y) ++ clamp (sN t) n ++ clamp (sD t) d)
  * deltas (xm t) (clamp (xs (den t)) x) (clamp (sN t) n ++ clamp (sD t) d) * deltas (ym t) (clamp (ys (den t)) y) (clamp (sN t) n ++ clamp (sD t) d).
Proof. reflexivity. Qed.
Lemma stored_at S t x y n d : xfits S t -> at_shape S x y n d ->
  In (stored (xm t) (clamp (xs (den t)) x) ++ stored (ym t) (clamp (ys (den t)) y) ++ clamp (sN t) n ++ clamp (sD t) d) (indices (shp (tv t))).
Proof.
  intros X (H1 & H2 & H3 & H4). pose proof (xf_wf _ _ X) as W. pose proof (wf_groups t W) as G. rewrite (g_shp _ _ _ _ _ G).
  destruct (wf_pos4 t W) as (P1 & P2 & P3 & P4). pose proof (wf_den_pos t W) as (Q1 & Q2 & Q3 & Q4).
  repeat apply in_indices_app2.
  - apply (stored_in _ _ (sN t ++ sD t)); [apply (wf_x _ W)|exact P1|]. apply (le1_in _ (SX S)); auto. apply (xf_x _ _ X).
  - apply (stored_in _ _ (sN t ++ sD t)); [apply (wf_y _ W)|exact P2|]. apply (le1_in _ (SY S)); auto. apply (xf_y _ _ X).
  - apply (le1_in _ (SN S)); auto. apply X.
  - apply (le1_in _ (SD S)); auto. exact (xf_d _ _ X).
Qed.
Lemma retensor_get S t r x y n d (f : R -> R) : xfits S t -> xfits S r -> xm r = xm t -> ym r = ym t -> shp (tv r) = shp (tv t) ->
  (forall i, In i (indices (shp (tv t))) -> el (tv r) i = f (el (tv t) i)) ->
  (forall v e1 e2, (e1 = 0 \/ e1 = 1) -> (e2 = 0 \/ e2 = 1) -> f v * e1 * e2 = f (v * e1 * e2)) ->
  at_shape S x y n d -> get (den r) x y n d = f (get (den t) x y n d).
Proof.
  intros Xt Xr Mx My Es Ev Hf Hi. rewrite !get_den by (apply Xt || apply Xr).
  destruct (xfits_dims S t Xt) as (T1 & T2 & T3 & T4). destruct (xfits_dims S r Xr) as (R1 & R2 & R3 & R4).
  assert (ESX : sX r = sX t) by (unfold sX; rewrite Es, R1, T1; reflexivity).
  assert (ESY : sY r = sY t) by (unfold sY; rewrite Es, R1, T1, R2, T2; reflexivity).
  assert (ESN : sN r = sN t) by (unfold sN; rewrite Es, R1, T1, R2, T2, R3, T3; reflexivity).
  assert (ESD : sD r = sD t) by (unfold sD; rewrite Es, R1, T1, R2, T2, R3, T3; reflexivity).
  cbn [den xs ys]. rewrite ESX, ESY, ESN, ESD, Mx, My. pose proof (stored_at S t x y n d Xt Hi) as IN. cbn [den xs ys] in IN. rewrite Ev by exact IN.
  apply Hf; apply deltas_01.
Qed.
Lemma pf_tab Q S v : pf Q S v -> forall x y n d, get (vden v) x y n d = match v with PT t => get (den t) x y n d | PG g => gsum_at (els g) x y n d | _ => get (vden v) x y n d end.
Proof. destruct v; intros; cbn [vden]; auto. apply get_gden. Qed.
(** z + t for z = Tensor(0) *)
Lemma zero_add S z t : zval (PT z) -> xfits S t -> shp (tv t) <> [] ->
  exists r, tbin_t z t ADD = Ok (PT r) /\ xfits S r /\ xm r = xm t /\ ym r = ym t /\ shp (tv r) = shp (tv t) /\
    tabeq S (get (den r)) (get (den t)).
Proof.
  intros (z' & Ez & S0 & V & _) X Rt. injection Ez as <-. unfold tbin_t. destruct (shp (tv t)) as [|s0 sh] eqn:Est; [congruence|].
  unfold tbin_tensor. rewrite S0. destruct (np_bin_scalar (op_fun ADD) (tv z) (tv t) S0) as (a & Ea & Sa & Va); [apply (wf_pos _ (xf_wf _ _ X))|].
  rewrite Ea. cbn [rbind]. destruct (xfits_retensor S t a X Sa) as (r & Er & Xr & Mx & My & Ev). rewrite Er. cbn [rbind]. exists r.
  assert (Es : shp (tv r) = shp (tv t)) by (rewrite Ev; exact Sa).
  split; [reflexivity|]. split; [exact Xr|]. split; [exact Mx|]. split; [exact My|]. split; [rewrite Es; exact Est|].
  intros x y n d Hi. apply (retensor_get S t r x y n d (fun v => v)); auto. intros i Hin. rewrite Ev, Va by auto. cbn [op_fun]. rewrite V. ring.
Qed.
Theorem radd b1 b2 Q S u v F G : spos S -> nonscalar S -> rep b1 Q S u F -> rep b2 Q S v G ->
  exists w, py OAdd u v = Ok w /\ rep (b1 || b2) Q S w (fun x y n d => F x y n d + G x y n d).
Proof.
  intros PS NS Ru Rv. destruct Ru as [(-> & Zu & Fu)|(Pu & Fu)], Rv as [(-> & Zv & Fv)|(Pv & Fv)]; cbn [orb].
  - destruct (zval_inv u Zu) as [s ->]. destruct (zval_inv v Zv) as [t ->]. exists (PT s). cbn [py direct tbin]. rewrite (tadd_zero s t Zv).
    split; [reflexivity|]. left. split; [reflexivity|]. split; [exact Zu|]. intros x y n d Hi. rewrite (Fu _ _ _ _ Hi), (Fv _ _ _ _ Hi). ring.
  - destruct (zval_inv u Zu) as [s ->]. cbn [py direct tbin].
    assert (EF : tabeq S G (fun x y n d => F x y n d + G x y n d)) by (intros x y n d Hi; rewrite (Fu _ _ _ _ Hi); ring).
    destruct v as [| |t|g]; try destruct Pv; cbn [tbin].
    + destruct H as [X q]. destruct (zero_add S s t Zu X) as (r & Er & Xr & Mx & My & Es & V); [now apply (xfits_rank S)|].
      rewrite Er. exists (PT r). split; [reflexivity|]. right. split.
      * cbn [pf]. split; [split; auto; now rewrite Mx, My|]. apply rank_not_zero. rewrite Es. now apply (xfits_rank S).
      * intros x y n d Hi. cbn [vden]. rewrite (V _ _ _ _ Hi), (Fu _ _ _ _ Hi). rewrite <- (Fv _ _ _ _ Hi). cbn [vden]. ring.
    + assert (Pg : pf Q S (PG g)) by (cbn [pf]; auto). rewrite (gadd_zero Q S g s Pg Zu). exists (PG g). split; [reflexivity|]. right. split; [exact Pg|].
      intros x y n d Hi. rewrite (Fv _ _ _ _ Hi). now apply EF.
  - destruct (zval_inv v Zv) as [t ->]. exists u.
    assert (EF : tabeq S (get (vden u)) (fun x y n d => F x y n d + G x y n d)) by (intros x y n d Hi; rewrite (Fu _ _ _ _ Hi), (Fv _ _ _ _ Hi); ring).
    rewrite orb_false_r. destruct u as [| |s|g]; try destruct Pu; cbn [py direct tbin]; unfold gbin.
    + rewrite (tadd_zero s t Zv). split; [reflexivity|]. right. split; [cbn [pf]; auto|exact EF].
    + assert (Pg : pf Q S (PG g)) by (cbn [pf]; auto). rewrite (gadd_zero Q S g t Pg Zv). split; [reflexivity|]. right. split; [exact Pg|exact EF].
  - assert (K : forall w, pf Q S w -> tabeq S (get (vden w)) (fun x y n d => get (vden u) x y n d + get (vden v) x y n d) ->
        rep (b1 || b2) Q S w (fun x y n d => F x y n d + G x y n d)).
    { intros w Pw V. right. split; [exact Pw|]. intros x y n d Hi. rewrite (V _ _ _ _ Hi), (Fu _ _ _ _ Hi), (Fv _ _ _ _ Hi). reflexivity. }
    destruct u as [| |s|g]; try now destruct Pu.
    + destruct v as [| |t|h]; try now destruct Pv.
      * destruct Pu as [Fs Zs]. destruct Pv as [Ft Zt]. cbn [py direct tbin]. destruct (xadd Q S s t PS NS Fs Ft) as [(r & Er & Fr & V)|Eg].
        -- rewrite Er. exists (PT r). split; [reflexivity|]. apply K; [|exact V]. split; [exact Fr|]. apply rank_not_zero. now apply (xfits_rank S); [apply Fr|].
        -- rewrite Eg. eexists. split; [reflexivity|]. apply K.
           ++ cbn [pf els gx gy gn gd]. split; [discriminate|]. split; [|auto]. repeat constructor; [exists s|exists t]; auto.
           ++ intros x y n d Hi. cbn [vden]. rewrite get_gden. unfold gsum_at. cbn [els]. rewrite !Rsum_cons, Rsum_nil. cbn [iden]. ring.
      * destruct Pu as [Fs Zs]. destruct (pf_gle Q S h Pv) as [A L]. cbn [py direct tbin]. destruct (gadd1 Q S h s PS NS A L Fs) as (g' & E & P' & V).
        rewrite E. exists (PG g'). split; [reflexivity|]. apply K; [exact P'|]. intros x y n d Hi. cbn [vden]. rewrite (V _ _ _ _ Hi). ring.
    + destruct v as [| |t|h]; try now destruct Pv.
      * destruct Pv as [Ft Zt]. destruct (pf_gle Q S g Pu) as [A L]. cbn [py direct]. unfold gbin. destruct (gadd1 Q S g t PS NS A L Ft) as (g' & E & P' & V).
        rewrite E. exists (PG g'). split; [reflexivity|]. apply K; [exact P'|exact V].
      * destruct (pf_gle Q S g Pu) as [A L]. destruct (pf_gle Q S h Pv) as [A' L']. cbn [py direct]. unfold gbin, gbin_g.
        destruct (gaddl Q S (els h) PS NS A' g A L (fun _ => Pu)) as (g' & E & _ & _ & P' & V). rewrite E. exists (PG g'). split; [reflexivity|].
        apply K; [apply P'; left; apply Pu|]. intros x y n d Hi. cbn [vden]. rewrite (V _ _ _ _ Hi), get_gden. rewrite (get_gden h). reflexivity.
Qed.
Lemma radd0_r b Q S v F : rep b Q S v F -> py OAdd v (PNum 0) = Ok v.
Proof.
  intros [(_ & Z & _)|(P & _)].
  - destruct (zval_inv v Z) as [t ->]. cbn [py direct tbin tbin1]. now rewrite tadd_num0.
  - destruct v as [| |t|g]; try now destruct P. + cbn [py direct tbin tbin1]. now rewrite tadd_num0.
    + cbn [py direct]. unfold gbin. now rewrite (gadd_num0 Q S g P).
Qed.
Lemma radd0_l b Q S v F : rep b Q S v F -> py OAdd (PNum 0) v = Ok v.
Proof.
  intros [(_ & Z & _)|(P & _)].
  - destruct (zval_inv v Z) as [t ->]. cbn [py reflected tbin tbin1]. now rewrite tadd_num0.
  - destruct v as [| |t|g]; try now destruct P. + cbn [py reflected tbin tbin1]. now rewrite tadd_num0.
    + cbn [py reflected]. unfold gbin. now rewrite (gadd_num0 Q S g P).
Qed.
(** sum([...]) *)
Theorem rsum Q S (bs : list bool) vs Fs : spos S -> nonscalar S -> vs <> [] -> Forall2 (fun bF v => rep (fst bF) Q S v (snd bF)) (combine bs Fs) vs ->
  length bs = length Fs ->
  exists w, pysum vs = Ok w /\ rep (existsb (fun b => b) bs) Q S w (fun x y n d => Rsum (fun F => F x y n d) Fs).
Proof.
  intros PS NS Hne HF HL.
  assert (K : forall vs bs Fs, length bs = length Fs -> Forall2 (fun bF v => rep (fst bF) Q S v (snd bF)) (combine bs Fs) vs ->
    forall b u F, rep b Q S u F -> exists w, ofold (py OAdd) vs u = Ok w /\ rep (b || existsb (fun b => b) bs) Q S w (fun x y n d => F x y n d + Rsum (fun F => F x y n d) Fs)).
  { clear - PS NS. induction vs as [|v vs IH]; intros bs Fs HL HF b u F Ru; inversion HF as [E|[b' G] ? l ? R1 R2 E]; subst.
    - destruct bs, Fs; try discriminate. exists u. cbn [ofold existsb]. rewrite orb_false_r. split; [reflexivity|]. eapply rep_ext; [exact Ru|]. intros x y n d _. rewrite Rsum_nil. ring.
    - destruct bs as [|b0 bs], Fs as [|F0 Fs]; try discriminate. cbn [combine] in E. injection E as -> -> ->. cbn [fst snd] in R1. cbn [ofold].
      destruct (radd b b0 Q S u v F F0 PS NS Ru R1) as (w & Ew & Rw). rewrite Ew. cbn [rbind]. injection HL as HL.
      destruct (IH bs Fs HL R2 _ w _ Rw) as (w' & E' & R'). exists w'. split; [exact E'|]. cbn [existsb]. rewrite orb_assoc. eapply rep_ext; [exact R'|].
      intros x y n d _. cbn beta. rewrite Rsum_cons. ring. }
  destruct vs as [|v vs]; [congruence|]. inversion HF as [|[b' G] ? l ? R1 R2 E]; subst. destruct bs as [|b0 bs], Fs as [|F0 Fs]; try discriminate. cbn [combine] in E. injection E as -> -> ->.
  cbn [fst snd] in R1. unfold pysum. cbn [ofold]. rewrite (radd0_l _ _ _ _ _ R1). cbn [rbind]. injection HL as HL.
  destruct (K vs bs Fs HL R2 b0 v F0 R1) as (w & Ew & Rw). exists w. split; [exact Ew|]. cbn [existsb]. eapply rep_ext; [exact Rw|]. intros x y n d _. cbn beta. rewrite Rsum_cons. reflexivity.
Qed.

(** *** multiples *)
Lemma xscale S t c : c <> 0 -> xfits S t -> exists r, tbin_num t c MUL = Ok r /\ xfits S r /\ xm r = xm t /\ ym r = ym t /\
  (is_zero0 (tv t) = false -> is_zero0 (tv r) = false) /\ tabeq S (get (den r)) (fun x y n d => c * get (den t) x y n d).
Proof.
  intros Hc X. unfold tbin_num. destruct (Req_EM_T c 0) as [|_]; [contradiction|]. destruct (Req_EM_T c 1) as [->|Hc1].
  - exists t. repeat split; auto; try apply X. intros x y n d _. ring.
  - cbn [additive]. destruct (xfits_retensor S t (np_map (fun v => op_fun MUL v c) (tv t)) X eq_refl) as (r & Er & Xr & Mx & My & Ev).
    exists r. split; [exact Er|]. split; [exact Xr|]. split; [exact Mx|]. split; [exact My|]. split.
    + rewrite Ev. unfold is_zero0, np_map; cbn [shp el]. destruct (shp (tv t)); [|auto]. cbn [op_fun].
      destruct (Req_EM_T (el (tv t) []) 0) as [|Hz]; [discriminate|]. intros _. destruct (Req_EM_T (el (tv t) [] * c) 0) as [E|_]; [|reflexivity].
      apply Rmult_integral in E. tauto.
    + intros x y n d Hi. rewrite (retensor_get S t r x y n d (fun v => c * v)); auto.
      * now rewrite Ev.
      * intros i _. rewrite Ev. cbn [np_map el op_fun]. ring.
      * intros v e1 e2 _ _. ring.
Qed.
Theorem rscale b Q S v F c : c <> 0 -> rep b Q S v F -> exists w, py OMul (PNum c) v = Ok w /\ rep b Q S w (fun x y n d => c * F x y n d).
Proof.
  intros Hc [(-> & Z & E)|(P & E)].
  - pose proof Z as (t & -> & S0 & V & X & Y & N & D & Mx & My). cbn [py reflected tbin tbin1]. unfold tbin_num.
    destruct (Req_EM_T c 0) as [|_]; [contradiction|]. assert (EE : tabeq S (fun x y n d => c * F x y n d) (fun _ _ _ _ => 0)) by (intros x y n d Hi; rewrite (E _ _ _ _ Hi); ring).
    destruct (Req_EM_T c 1) as [->|_]; [exists (PT t); split; [reflexivity|left; auto]|]. cbn [additive]. unfold Tensor, ndim. cbn [np_map shp].
    rewrite S0, X, Y, D. cbn [length Nat.add Nat.ltb Nat.leb rbind]. eexists. split; [reflexivity|]. left. split; [reflexivity|]. split; [|exact EE].
    eexists. split; [reflexivity|]. cbn [tv shp np_map el xd yd nn dm xm ym op_fun]. rewrite V. repeat split; auto. ring.
  - destruct v as [| |t|g]; try now destruct P.
    + destruct P as [[X q] Z]. cbn [py reflected tbin tbin1]. destruct (xscale S t c Hc X) as (r & Er & Xr & Mx & My & Zr & V). rewrite Er. cbn [rbind].
      exists (PT r). split; [reflexivity|]. right. split; [split; [split; auto; now rewrite Mx, My|auto]|]. intros x y n d Hi. cbn [vden]. rewrite (V _ _ _ _ Hi). rewrite <- (E _ _ _ _ Hi). reflexivity.
    + cbn [py reflected]. unfold gbin. unfold gbin1. cbn zeta. destruct P as (Ne & A & NS & C).
      assert (K : exists es', rmapM (fun e => let! v := item_bin e (INum c) MUL in as_item v) (els g) = Ok es' /\ Forall (ifit Q S) es' /\ length es' = length (els g) /\
         forall x y n d, at_shape S x y n d -> gsum_at es' x y n d = c * gsum_at (els g) x y n d).
      { clear - A Hc. induction A as [|e es (t & -> & X & q) A IH]; cbn [rmapM].
        - exists []. repeat split; auto. intros. unfold gsum_at. rewrite !Rsum_nil. ring.
        - cbn [item_bin tbin1]. destruct (xscale S t c Hc X) as (r & Er & Xr & Mx & My & _ & V). rewrite Er. cbn [rbind as_item].
          destruct IH as (es' & E & F' & L & V'). rewrite E. cbn [rbind]. exists (IT r :: es'). split; [reflexivity|]. split.
          { constructor; [exists r; split; auto; split; auto; now rewrite Mx, My|exact F']. }
          split; [cbn; lia|]. intros x y n d Hi. unfold gsum_at in *. rewrite !Rsum_cons, V' by auto. cbn [iden]. rewrite (V _ _ _ _ Hi). ring. }
      destruct K as (es' & Ee & F' & L & V). rewrite Ee. cbn [rmap rbind]. eexists. split; [reflexivity|]. right. split.
      * cbn [pf els gx gy gn gd]. split; [|auto]. destruct es'; [destruct (els g); [congruence|discriminate]|discriminate].
      * intros x y n d Hi. cbn [vden]. rewrite get_gden. cbn [els]. rewrite V by auto. rewrite <- (E _ _ _ _ Hi). cbn [vden]. now rewrite get_gden.
Qed.
End ex.
