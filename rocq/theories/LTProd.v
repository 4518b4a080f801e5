(** Products of Tensors and GenericTensors that fit a common shape. *)
From Verif Require Import Prelude DenseModel AnalyticSpec DenseProofs NDArray NDProofs TensorModel TensorSpec TensorSpecOps TensorLemmas TensorBasic TensorSum TensorSumMain TensorBin TensorArith TensorShape TensorExpand TensorGeneric TensorGSum TensorGUni TensorGMix TensorDotCore TensorDot TensorUfunc TensorUfuncP FuncModel FuncSpec FTModel FTRep FTRep2 FTRep3 FTVal LTPlain.
From Coq Require Import Reals Lra.
Import List ListNotations.
Open Scope R_scope.

Lemma bind_inv {A B} (x : res A) (k : A -> res B) b : rbind x k = Ok b -> exists a, x = Ok a /\ k a = Ok b.
Proof. destruct x as [a|]; cbn [rbind]; [eauto|discriminate]. Qed.
Ltac binv H := let a := fresh "v" in let E := fresh "E" in apply bind_inv in H; destruct H as (a & E & H).
Lemma tmul_maps s o op r : additive op = false -> shp (tv s) <> [] -> tbin_tensor s o op = Ok (PT r) ->
  xm r = (if nonempty (xm s) then xm s else xm o) /\ ym r = (if nonempty (ym s) then ym s else ym o).
Proof.
  intros A R H. unfold tbin_tensor in H. destruct (shp (tv s)) as [|s0 sh0]; [congruence|]. clear R.
  do 4 (binv H). rewrite A in H. binv H. destruct v3 as [[mx l] r0]. binv H. destruct v3 as [[my l'] r'].
  binv H. binv H. binv H. binv H. apply Tensor_inv in E8. injection H as ->. destruct E8 as (-> & -> & _).
  split.
  - destruct (nonempty (xm s)); binv E3; [binv E3|]; injection E3; congruence.
  - destruct (nonempty (ym s)); binv E4; [binv E4|]; injection E4; congruence.
Qed.
Lemma fits_le S t u f : spos S -> fits S t -> fits S u -> In f (targets (xm t)) \/ In f (targets (ym t)) -> (nth f (sN u) 1 <= nth f (sN t) 1)%nat.
Proof.
  intros (_ & _ & PS & _) Ft Fu Hf. rewrite (ft_full _ _ Ft f Hf). destruct (ft_n _ _ Fu) as [E|B]; [rewrite E|].
  - destruct (Nat.lt_ge_cases f (length (SN S))) as [L|L]; [|rewrite (nth_overflow (SN S)) by auto; destruct f; auto].
    pose proof (proj1 (Forall_forall _ _) PS _ (nth_In _ 1%nat L)) as Q. cbn beta in Q. destruct f; auto.
  - clear - B PS. revert f; induction B; intros f; [destruct f; auto|]. inversion PS; subst. destruct f; cbn; [lia|]. apply IHB; auto.
Qed.
Lemma fits_compat_sa S s o : spos S -> fits S s -> fits S o ->
  same_or_absent (xm s) (xm o) (sX s) (sX o) -> same_or_absent (ym s) (ym o) (sY s) (sY o) -> compat s o.
Proof.
  intros PS Fs Fo Mx My. pose proof (wf_groups s (ft_wf _ _ Fs)) as Gs. pose proof (wf_groups o (ft_wf _ _ Fo)) as Go.
  destruct (ft_feat _ _ Fs) as [Tx Ty]. destruct (ft_feat _ _ Fo) as [Ux Uy]. rewrite <- (g_n _ _ _ _ _ Gs) in Tx, Ty. rewrite <- (g_n _ _ _ _ _ Go) in Ux, Uy.
  destruct (den_groups _ _ _ _ _ Gs) as (Dx & Dy & _). destruct (den_groups _ _ _ _ _ Go) as (Dx' & Dy' & _).
  rewrite gx_msizes in Dx, Dy by auto. rewrite gx_msizes in Dx', Dy' by auto.
  pose proof (ft_x _ _ Fs) as Bx. pose proof (ft_y _ _ Fs) as By. pose proof (ft_x _ _ Fo) as Bx'. pose proof (ft_y _ _ Fo) as By'.
  rewrite Dx in Bx. rewrite Dy in By. rewrite Dx' in Bx'. rewrite Dy' in By'.
  destruct (wf_x s (ft_wf _ _ Fs)) as (Sx & _). destruct (wf_y s (ft_wf _ _ Fs)) as (Sy & _).
  destruct (wf_x o (ft_wf _ _ Fo)) as (Sx' & _). destruct (wf_y o (ft_wf _ _ Fo)) as (Sy' & _).
  constructor.
  - destruct Mx as [Ex|[[_ ->]|[_ ->]]]; [|now right; left|now left]. rewrite <- Ex in Bx', Ux, Sx'. apply (bok_group (xm s) _ _ (sN s) (sN o) (SX S)); auto.
  - destruct My as [Ey|[[_ ->]|[_ ->]]]; [|now right; left|now left]. rewrite <- Ey in By', Uy, Sy'. apply (bok_group (ym s) _ _ (sN s) (sN o) (SY S)); auto.
  - eapply below_bok; [apply (ft_n _ _ Fs)|apply (ft_n _ _ Fo)].
  - eapply below_bok; [apply (ft_d _ _ Fs)|apply (ft_d _ _ Fo)].
  - intros f Hf. apply (fits_le S); auto.
  - intros f Hf. apply (fits_le S); auto.
  - intros f Hf. apply (fits_le S); auto.
  - intros f Hf. apply (fits_le S); auto.
Qed.
Lemma feat_lt' S t f : fits S t -> In f (targets (xm t)) \/ In f (targets (ym t)) -> (f < length (sN t))%nat.
Proof. intros F. apply feat_lt; apply F. Qed.
Lemma tprod S s o op : spos S -> op = MUL \/ op = DIV -> fits S s -> fits S o ->
  same_or_absent (xm s) (xm o) (sX s) (sX o) -> same_or_absent (ym s) (ym o) (sY s) (sY o) -> divisible s o op ->
  exists r, tbin_t s o op = Ok (PT r) /\ fits S r /\ dsame (den r) (dbin (op_fun op) (den s) (den o)) /\
    xm r = (if nonempty (xm s) then xm s else xm o) /\ ym r = (if nonempty (ym s) then ym s else ym o).
Proof.
  intros PS Hop Fs Fo Mx My Dv. pose proof (fits_compat_sa S s o PS Fs Fo Mx My) as C.
  destruct (tmul_ok s o op (ft_wf _ _ Fs) (ft_wf _ _ Fo) (ft_feat _ _ Fs) (ft_feat _ _ Fo) C (ft_rank _ _ Fs) Mx My Dv) as (r & Er & Wr & Tr & De).
  destruct (tmul_maps s o op r ltac:(destruct Hop as [-> | ->]; reflexivity) (ft_rank _ _ Fs) Er) as [Ex Ey].
  exists r. split; [unfold tbin_t; pose proof (ft_rank _ _ Fo); destruct (shp (tv o)); [congruence|exact Er]|]. split; [|auto].
  pose proof De as (E1 & E2 & E3 & E4 & _). cbn [dbin xs ys ns ds] in E1, E2, E3, E4. destruct PS as (PX & PY & PN & PD).
  constructor; auto.
  - intros Z. apply (rank_groups r Wr) in Z as (Z1 & Z2 & Z3 & Z4). apply (ft_rank _ _ Fs). apply (rank_groups s (ft_wf _ _ Fs)).
    rewrite E1 in Z1. rewrite E2 in Z2. rewrite E3 in Z3. rewrite E4 in Z4. repeat split; eapply bmax_nil_inv; eauto.
  - rewrite E1. apply below_bmax; auto; [apply (ft_x _ _ Fs)|apply (ft_x _ _ Fo)].
  - rewrite E2. apply below_bmax; auto; [apply (ft_y _ _ Fs)|apply (ft_y _ _ Fo)].
  - change (sN r) with (ns (den r)). rewrite E3. apply below_bmax; auto; [apply (ft_n _ _ Fs)|apply (ft_n _ _ Fo)].
  - change (sD r) with (ds (den r)). rewrite E4. apply below_bmax; auto; [apply (ft_d _ _ Fs)|apply (ft_d _ _ Fo)].
  - intros f Hf. change (sN r) with (ns (den r)). rewrite E3. cbn [den ns].
    assert (Hs : (In f (targets (xm s)) \/ In f (targets (ym s))) \/ (In f (targets (xm o)) \/ In f (targets (ym o)))).
    { rewrite Ex, Ey in Hf. destruct Hf as [Hf|Hf]; [destruct (nonempty (xm s))|destruct (nonempty (ym s))]; auto. }
    destruct Hs as [Hs|Hs].
    + rewrite <- (ft_full _ _ Fs f Hs). apply nth_bmax_full; [now apply (feat_lt' S)|]. apply (fits_le S s o f); auto. repeat split; auto.
    + rewrite <- (ft_full _ _ Fo f Hs), bmax_sym. apply nth_bmax_full; [now apply (feat_lt' S)|]. apply (fits_le S o s f); auto. repeat split; auto.
Qed.
(** *** GenericTensor times Tensor *)
Lemma shmax_idem a : shmax a a = a.
Proof. destruct a. unfold shmax. cbn. now rewrite !bmax_idem. Qed.
Lemma shmax_nil a : shmax a (SH [] [] [] []) = a.
Proof. destruct a. unfold shmax. cbn. now rewrite !bmax_nil_r. Qed.
(** at most [d] dim axes *)
Definition upto (d : nat) : nat -> Prop := fun k => (k <= d)%nat.
Lemma nd_upto n d t : nd n d t -> md (upto d) n t.
Proof. intros [A B]. split; [exact A|]. unfold upto. lia. Qed.
Lemma ndi_upto n d es : Forall (ndi n d) es -> Forall (mdi (upto d) n) es.
Proof. intros H. eapply Forall_impl; [|exact H]. intros e He t Et. now apply nd_upto, He. Qed.
Lemma vnd_upto n d v : vnd n d v -> vmd (upto d) n v.
Proof.
  destruct v as [c|a|t|g]; cbn [vnd vmd]; auto; [apply nd_upto|]. intros (A & B & C & D & E & F).
  split; [exact A|]. split; [unfold upto; lia|]. split; [now apply ndi_upto|]. auto.
Qed.
Lemma upto_max d a b : upto d a -> upto d b -> upto d (Nat.max a b).
Proof. unfold upto. lia. Qed.
Lemma md_prod S n d s o r op : fits S s -> fits S o -> fits S r -> md (upto d) n s -> nd n d o -> dsame (den r) (dbin op (den s) (den o)) -> nd n d r.
Proof.
  intros Fs Fo Fr [N1 D1] [N2 D2] (_ & _ & En & Ed & _). unfold upto in D1. destruct (fits_lens S s Fs) as (_ & _ & L1 & L2), (fits_lens S o Fo) as (_ & _ & L3 & L4), (fits_lens S r Fr) as (_ & _ & L5 & L6).
  split; [rewrite <- L5, En|rewrite <- L6, Ed]; cbn [dbin ns ds]; rewrite bmax_len; lia.
Qed.
Lemma gprod_items S o op : spos S -> op = MUL \/ op = DIV -> fits S o -> forall n d, nd n d o -> forall es, allfit S es -> Forall (mdi (upto d) n) es ->
  (forall t, In (IT t) es -> same_or_absent (xm t) (xm o) (sX t) (sX o) /\ same_or_absent (ym t) (ym o) (sY t) (sY o) /\ divisible t o op) -> es <> [] ->
  exists es', rmapM (fun e => let! v := item_bin e (IT o) op in as_item v) es = Ok es' /\ allfit S es' /\ Forall (ndi n d) es' /\ es' <> [] /\
    gshape es' = shmax (gshape es) (shape_of (den o)) /\
    (forall x y n d, at_shape S x y n d -> gsum_at es' x y n d = op_fun op (gsum_at es x y n d) (get (den o) x y n d)).
Proof.
  intros PS Hop Fo n d No. induction es as [|e es IH]; intros Fe Ne Q NE; [congruence|]. inversion Fe as [|? ? [t [-> Ft]] Fe']; subst. inversion Ne as [|? ? Nt Ne']; subst.
  destruct (Q t (or_introl eq_refl)) as (Q1 & Q2 & Q3). destruct (tprod S t o op PS Hop Ft Fo Q1 Q2 Q3) as (r & Er & Fr & De & _). cbn [rmapM item_bin tbin1]. rewrite Er. cbn [rbind as_item].
  assert (Nr : ndi n d (IT r)) by (intros t' E; injection E as <-; apply (md_prod S n d t o r (op_fun op)); auto; now apply Nt).
  assert (Sr : shape_of (iden (IT r)) = shmax (shape_of (den t)) (shape_of (den o))).
  { rewrite <- (shape_dbin (op_fun op)). destruct De as (E1 & E2 & E3 & E4 & _). unfold shape_of. cbn [iden]. congruence. }
  assert (Vr : forall x y n d, at_shape S x y n d -> get (iden (IT r)) x y n d = op_fun op (get (den t) x y n d) (get (den o) x y n d)).
  { intros x y n0 d0 Hi. cbn [iden]. rewrite (dsame_at S _ _ x y n0 d0 De); auto; [apply get_dbin|apply wf_dpos, Fr|now apply fits_dbelow]. }
  destruct es as [|e2 es].
  - cbn [rmapM rbind]. eexists. split; [reflexivity|]. split; [constructor; [eauto|constructor]|]. split; [constructor; [exact Nr|constructor]|]. split; [discriminate|]. split.
    + rewrite !gshape_cons. cbn [iden] in *. rewrite Sr. assert (GN : gshape [] = SH [] [] [] []) by reflexivity. rewrite GN, !shmax_nil. reflexivity.
    + intros x y n0 d0 Hi. unfold gsum_at. rewrite !Rsum_cons, !Rsum_nil, (Vr _ _ _ _ Hi). cbn [iden]. destruct Hop as [-> | ->]; cbn [op_fun]; unfold Rdiv; ring.
  - destruct IH as (es' & E1 & F1 & N1 & NE1 & S1 & V1); auto; [intros t' Ht'; apply Q; now right|discriminate|]. rewrite E1. cbn [rbind]. eexists. split; [reflexivity|].
    split; [constructor; eauto|]. split; [constructor; auto|]. split; [discriminate|]. split.
    + rewrite gshape_cons, (gshape_cons (IT t)), S1. cbn [iden] in *. rewrite Sr.
      rewrite (shmax_sym (gshape (e2 :: es)) (shape_of (den o))), shmax_assoc, <- (shmax_assoc (shape_of (den t))), shmax_idem, <- shmax_assoc, (shmax_sym (shape_of (den o))), shmax_assoc. reflexivity.
    + intros x y n0 d0 Hi. specialize (V1 x y n0 d0 Hi). unfold gsum_at in *. rewrite (Rsum_cons _ (IT r)), (Rsum_cons _ (IT t)), V1, (Vr _ _ _ _ Hi). cbn [iden].
      destruct Hop as [-> | ->]; cbn [op_fun]; unfold Rdiv; ring.
Qed.

(** *** values with a table *)
Definition sizes (b : bool) (s : list nat) : list nat := if b then s else [].
Record wv (bx by_ bn : bool) (S : shape4) (v : pval) (F : table) : Prop := mkWv {
  wv_fits : vfits S v; wv_nd : vnd (length (SN S)) (length (SD S)) v;
  wv_tab : tabeq S (get (vden v)) F;
  wv_x : xs (vden v) = sizes bx (SX S); wv_y : ys (vden v) = sizes by_ (SY S);
  wv_n : bn = true -> ns (vden v) = SN S /\ ds (vden v) = SD S }.
Lemma wv_ext bx by_ bn S v F G : tabeq S F G -> wv bx by_ bn S v F -> wv bx by_ bn S v G.
Proof. intros E [A B C D E' H]. constructor; auto. intros x y n d Hi. rewrite C by auto. now apply E. Qed.
Lemma plt_fits S t k : nonscalar S -> plt t -> lv (Datatypes.S k) (SN S, SD S) (den t) -> fits S t /\ nd (length (SN S)) (length (SD S)) t.
Proof.
  intros NS P L. destruct (plt_facts t P) as (X0 & Y0 & Mx & My & Sh & EX & EY & Ft). pose proof P as (W & X & Y).
  assert (L1 : lv 1 (SN S, SD S) (den t)) by (apply (lv_le _ 1 (Datatypes.S k)); [lia|exact L]). destruct L1 as [L1 L2]. cbn [fst snd den ns ds] in L1, L2.
  pose proof (wf_groups t W) as G. split.
  - constructor; auto; try (rewrite ?X, ?Y; now left); try (right; assumption).
    + intros E. rewrite Sh in E. apply app_eq_nil in E. destruct E as [E1 E2]. apply NS. rewrite E1 in L1. rewrite E2 in L2. apply le1_nil in L1, L2. now rewrite L1, L2.
    + rewrite Mx, My. intros f [[]|[]].
  - split; [rewrite <- (g_n _ _ _ _ _ G); now apply le1_len|rewrite <- (g_d _ _ _ _ _ G); now apply le1_len].
Qed.
Definition tin (t : tensor) (v : pval) : Prop := match v with PT s => t = s | PG g => In (IT t) (els g) | _ => False end.
Lemma shape_eq a b : dsame a b -> shape_of a = shape_of b.
Proof. intros (E1 & E2 & E3 & E4 & _). unfold shape_of. congruence. Qed.
Lemma vprod_r S v p op n d : spos S -> op = MUL \/ op = DIV -> vfits S v -> vmd (upto d) n v -> fits S p -> nd n d p ->
  (forall t, tin t v -> same_or_absent (xm t) (xm p) (sX t) (sX p) /\ same_or_absent (ym t) (ym p) (sY t) (sY p) /\ divisible t p op) ->
  exists w, (match v with PT t => tbin_t t p op | PG g => rmap PG (gbin1 g (IT p) op) | _ => Raise TypeError end) = Ok w /\ vfits S w /\ vnd n d w /\
    shape_of (vden w) = shmax (shape_of (vden v)) (shape_of (den p)) /\
    tabeq S (get (vden w)) (fun x y n d => op_fun op (get (vden v) x y n d) (get (den p) x y n d)).
Proof.
  intros PS Hop Fv Nv Fp Np Q. destruct v as [c|a|t|g]; [destruct Fv|destruct Fv| |].
  - destruct (Q t eq_refl) as (Q1 & Q2 & Q3). destruct (tprod S t p op PS Hop Fv Fp Q1 Q2 Q3) as (r & Er & Fr & De & _). exists (PT r). split; [exact Er|]. split; [exact Fr|].
    split; [apply (md_prod S n d t p r (op_fun op)); auto|]. split; [cbn [vden]; rewrite (shape_eq _ _ De); apply shape_dbin|].
    intros x y n0 d0 Hi. cbn [vden]. rewrite (dsame_at S _ _ x y n0 d0 De); auto; [apply get_dbin|apply wf_dpos, Fr|now apply fits_dbelow].
  - destruct Nv as (G1 & G2 & G3 & G4 & G5 & G6). destruct (gprod_items S p op PS Hop Fp n d Np (els g) Fv G3 Q G4) as (es' & E1 & F1 & N1 & NE1 & S1 & V1).
    assert (EG : gbin1 g (IT p) op = Ok (mkG (Nat.max (gx g) (xd p)) (Nat.max (gy g) (yd p)) (Nat.max (gn g) (nn p)) (Nat.max (gd g) (dm p)) es')).
    { unfold gbin1. destruct Hop as [-> | ->]; rewrite E1; reflexivity. }
    set (g' := mkG _ _ _ _ _) in EG. exists (PG g'). split; [now rewrite EG|]. split; [exact F1|].
    assert (SG : shape_of (gden g') = shmax (shape_of (gden g)) (shape_of (den p))) by (rewrite !shape_gden; exact S1).
    destruct Np as [Np1 Np2]. destruct (fits_lens S p Fp) as (Lx & Ly & _). pose proof (f_equal SX SG : xs (gden g') = bmax (xs (gden g)) (xs (den p))) as X1. pose proof (f_equal SY SG : ys (gden g') = bmax (ys (gden g)) (ys (den p))) as X2.
    split; [|split; [exact SG|]].
    + cbn [vnd]. split; [change (Nat.max (gn g) (nn p) = n); lia|]. split; [change (Nat.max (gd g) (dm p) = d); unfold upto in G2; lia|]. split; [exact N1|]. split; [exact NE1|].
      split; [change (Nat.max (gx g) (xd p) = length (xs (gden g'))); rewrite X1, bmax_len, <- G5; rewrite Lx; reflexivity|].
      change (Nat.max (gy g) (yd p) = length (ys (gden g'))). rewrite X2, bmax_len, <- G6, Ly. reflexivity.
    + intros x y n0 d0 Hi. cbn [vden]. rewrite !get_gden. unfold g'. cbn [els]. now apply V1.
Qed.
Lemma bm_sizes b s : bmax (sizes b s) [] = sizes b s.
Proof. apply bmax_nil_r. Qed.
Lemma vnd_lens S v : spos S -> vfits S v -> vnd (length (SN S)) (length (SD S)) v -> le1 (ns (vden v)) (SN S) /\ le1 (ds (vden v)) (SD S).
Proof.
  intros PS F N. assert (B : dbelow S (vden v)) by (apply vden_below; auto). destruct B as [_ _ B1 B2].
  assert (L : length (ns (vden v)) = length (SN S) /\ length (ds (vden v)) = length (SD S)).
  { destruct v as [c|a|t|g]; [destruct F|destruct F| |].
    - destruct (fits_lens S t F) as (_ & _ & L1 & L2). destruct N as [N1 N2]. cbn [vden]. rewrite L1, L2. auto.
    - destruct N as (G1 & G2 & G3 & G4 & _). cbn [vden]. pose proof (shape_gden g) as SG. unfold shape_of in SG. unfold gshape in SG. injection SG as _ _ En Ed.
      cbn [vfits] in F. unfold gfits in F. rewrite En, Ed. split; (apply bmaxs_len; [|destruct (els g); [congruence|discriminate]]).
      + apply Forall_forall. intros l Hl. apply in_map_iff in Hl. destruct Hl as (e & <- & He). destruct (proj1 (Forall_forall _ _) F e He) as (t & -> & Ft).
        destruct (fits_lens S t Ft) as (_ & _ & L1 & _). cbn [iden]. rewrite L1. apply (proj1 (Forall_forall _ _) G3 (IT t) He t eq_refl).
      + apply Forall_forall. intros l Hl. apply in_map_iff in Hl. destruct Hl as (e & <- & He). destruct (proj1 (Forall_forall _ _) F e He) as (t & -> & Ft).
        destruct (fits_lens S t Ft) as (_ & _ & _ & L2). cbn [iden]. rewrite L2. apply (proj1 (Forall_forall _ _) G3 (IT t) He t eq_refl). }
  destruct L as [L1 L2]. split; apply below_len; auto.
Qed.
Lemma wv_prod_shape bx by_ bn k S v w t F : spos S -> wv bx by_ bn S v F -> plt t -> lv (Datatypes.S k) (SN S, SD S) (den t) ->
  shape_of (vden w) = shmax (shape_of (vden v)) (shape_of (den t)) ->
  xs (vden w) = sizes bx (SX S) /\ ys (vden w) = sizes by_ (SY S) /\ (bn || Nat.ltb 0 k = true -> ns (vden w) = SN S /\ ds (vden w) = SD S).
Proof.
  intros PS [Fv Nv _ Ex Ey En] (W & X & Y) L E. pose proof (f_equal SX E : xs (vden w) = bmax (xs (vden v)) (xs (den t))) as E1. pose proof (f_equal SY E : ys (vden w) = bmax (ys (vden v)) (ys (den t))) as E2.
  pose proof (f_equal SN E : ns (vden w) = bmax (ns (vden v)) (ns (den t))) as E3. pose proof (f_equal SD E : ds (vden w) = bmax (ds (vden v)) (ds (den t))) as E4. rewrite E1, E2, E3, E4, X, Y, !bmax_nil_r.
  split; [exact Ex|]. split; [exact Ey|]. destruct (vnd_lens S v PS Fv Nv) as [B1 B2].
  assert (L1 : lv 1 (SN S, SD S) (den t)) by (apply (lv_le _ 1 (Datatypes.S k)); [lia|exact L]). destruct L1 as [L1 L2]. cbn [fst snd] in L1, L2. destruct PS as (_ & _ & PN & PD).
  destruct bn; cbn [orb].
  - intros _. destruct (En eq_refl) as [-> ->]. split; apply bmax_full; auto.
  - intros Hk. apply Nat.ltb_lt in Hk. destruct k; [lia|]. destruct L as [E5 E6]. cbn [fst snd] in E5, E6. rewrite E5, E6. split; apply bmax_full; auto.
Qed.
Lemma at_plain t x y n d : plt t -> get (den t) x y n d = get (den t) [] [] n d.
Proof. intros (_ & X & Y). now apply get_plain_any. Qed.
(** times or divided by a plain value *)
Lemma wv_md o bx by_ bn k S u v F G : spos S -> nonscalar S -> o = OMul \/ o = ODiv -> wv bx by_ bn S u F -> pl (Datatypes.S k) (SN S, SD S) v G ->
  exists w, py o u v = Ok w /\ wv bx by_ (bn || Nat.ltb 0 k) S w (fun x y n d => rop o (F x y n d) (G n d)).
Proof.
  intros PS NS Ho Hu (t & -> & P & L & V). destruct (plt_fits S t k NS P L) as [Ft Nt]. pose proof Hu as [Fv Nv Tv _ _ _].
  destruct (plt_facts t P) as (_ & _ & Mx & My & _ & EX & EY & _).
  destruct (vprod_r S u t (direct o) _ _ PS ltac:(destruct Ho as [-> | ->]; auto) Fv (vnd_upto _ _ _ Nv) Ft Nt) as (w & Ew & Fw & Nw & Sw & Tw).
  { intros s _. split; [right; left; auto|]. split; [right; left; auto|]. destruct Ho as [-> | ->]; [now left|right; left; auto]. }
  exists w. split; [destruct u as [c|a|s|g]; [destruct Fv|destruct Fv|exact Ew|exact Ew]|].
  destruct (wv_prod_shape bx by_ bn k S u w t F PS Hu P L Sw) as (E1 & E2 & E3). constructor; auto.
  intros x y n d Hi. rewrite Tw by auto. rewrite rop_direct, (at_plain t) by auto. rewrite Tv by auto. rewrite V; [reflexivity|apply Hi|apply Hi].
Qed.
(** a plain value times *)
Lemma wv_lmul bx by_ bn k S u v F G : spos S -> nonscalar S -> wv bx by_ bn S u F -> pl (Datatypes.S k) (SN S, SD S) v G ->
  exists w, py OMul v u = Ok w /\ wv bx by_ (bn || Nat.ltb 0 k) S w (fun x y n d => G n d * F x y n d).
Proof.
  intros PS NS Hu Hv. pose proof Hv as (t & -> & P & L & V). destruct (plt_fits S t k NS P L) as [Ft Nt]. pose proof Hu as [Fv Nv Tv _ _ _].
  destruct (plt_facts t P) as (_ & _ & Mx & My & _ & EX & EY & _). destruct u as [c|a|s|g]; [destruct Fv|destruct Fv| |].
  - destruct (tprod S t s MUL PS (or_introl eq_refl) Ft Fv) as (r & Er & Fr & De & _); [right; right; auto|right; right; auto|now left|].
    exists (PT r). split; [exact Er|]. cbn [op_fun] in De.
    assert (Sw : shape_of (vden (PT r)) = shmax (shape_of (vden (PT s))) (shape_of (den t))) by (cbn [vden]; rewrite (shape_eq _ _ De), shape_dbin; apply shmax_sym).
    destruct (wv_prod_shape bx by_ bn k S (PT s) (PT r) t F PS Hu P L Sw) as (E1 & E2 & E3). constructor; auto.
    + apply (nd_result S _ _ t s r Rmult); auto.
    + intros x y n d Hi. cbn [vden]. rewrite (dsame_at S _ _ x y n d De); auto; [|apply wf_dpos, Fr|now apply fits_dbelow]. rewrite get_dbin, (at_plain t) by auto.
      rewrite V by apply Hi. specialize (Tv x y n d Hi). cbn [vden] in Tv. now rewrite Tv.
  - destruct (wv_md OMul bx by_ bn k S (PG g) (PT t) F G PS NS (or_introl eq_refl) Hu Hv) as (w & Ew & Ww). exists w. split; [|eapply wv_ext; [|exact Ww]; intros x y n d _; cbn; ring].
    cbn [py tbin gbin direct] in *. exact Ew.
Qed.
(** 0 times a plain value *)
Lemma zval_plt u : zval u -> exists t, u = PT t /\ plt t /\ shp (tv t) = [] /\ el (tv t) [] = 0.
Proof.
  intros (t & -> & E & V & X & Y & N & D & Mx & My). exists t. split; [reflexivity|]. split; [|auto].
  assert (W : wf t). { constructor; rewrite ?Mx, ?My, ?E, ?X, ?Y, ?N, ?D; cbn; auto; repeat constructor. }
  split; [exact W|]. cbn [den xs ys]. unfold sX, sY. rewrite E, Mx, My, X, Y. auto.
Qed.
Lemma zval_mul k S u v G : spos S -> nonscalar S -> zval u -> pl (Datatypes.S k) (SN S, SD S) v G ->
  exists w, py OMul u v = Ok w /\ wv false false (Nat.ltb 0 k) S w (fun _ _ _ _ => 0).
Proof.
  intros PS NS Z Hv. destruct (zval_plt u Z) as (z & -> & Pz & Ez & Vz). assert (P0 : pl 0 (SN S, SD S) (PT z) (fun _ _ => 0)).
  { exists z. split; [reflexivity|]. split; [exact Pz|]. split; [apply plt_rank in Ez; auto; apply app_eq_nil in Ez; left; exact Ez|]. intros n d _ _. rewrite rank0_get; auto. apply Pz. }
  assert (Hp : posl (flat (SN S, SD S))) by (apply Forall_app; split; apply PS).
  destruct (pl_mul (SN S, SD S) Hp NS 0 (Datatypes.S k) _ _ _ _ P0 Hv) as (w & Ew & (t & -> & P & L & V)). cbn [mlev Nat.max] in L.
  exists (PT t). split; [exact Ew|]. destruct (plt_fits S t k NS P L) as [Ft Nt]. constructor; auto; try (apply P).
  - intros x y n d Hi. cbn [vden]. rewrite (at_plain t) by auto. rewrite V by apply Hi. ring.
  - intros Hk. apply Nat.ltb_lt in Hk. destruct k; [lia|]. exact L.
Qed.
(** sum and difference *)
Lemma py_pbin o u v : o = OAdd \/ o = OSub -> (exists t, u = PT t) \/ (exists g, u = PG g) -> py o u v = pbin u v (direct o).
Proof. intros Ho [[t ->]|[g ->]]; destruct Ho as [-> | ->]; reflexivity. Qed.
Lemma wv_as o bx by_ bn cx cy cn S u v F G : spos S -> o = OAdd \/ o = OSub -> wv bx by_ bn S u F -> wv cx cy cn S v G ->
  exists w, py o u v = Ok w /\ wv (bx || cx) (by_ || cy) (bn || cn) S w (fun x y n d => rop o (F x y n d) (G x y n d)).
Proof.
  intros PS Ho [Fu Nu Tu Xu Yu Eu] [Fv Nv Tv Xv Yv Ev].
  assert (Hop : direct o = ADD \/ direct o = SUB) by (destruct Ho as [-> | ->]; auto).
  destruct (padd_ok S u v (direct o) PS Fu Fv Hop) as (w & Ew & Fw & De). exists w.
  split; [rewrite py_pbin; auto; destruct u as [c|a|s|g]; [destruct Fu|destruct Fu|left; eauto|right; eauto]|].
  pose proof (pbin_nd S _ _ u v (direct o) w PS Fu Fv Nu Nv Hop Ew) as Nw.
  pose proof De as (E1 & E2 & E3 & E4 & _). cbn [dbin xs ys ns ds] in E1, E2, E3, E4.
  destruct (vnd_lens S u PS Fu Nu) as [A1 A2]. destruct (vnd_lens S v PS Fv Nv) as [B1 B2]. pose proof PS as (PX & PY & PN & PD).
  destruct (vden_below S w PS Fw) as [Bw Pw].
  constructor; auto.
  - intros x y n d Hi. rewrite (dsame_at S _ _ x y n d De); auto. rewrite get_dbin, rop_direct, Tu, Tv; auto.
  - rewrite E1, Xu, Xv. destruct bx, cx; cbn [orb sizes]; rewrite ?bmax_idem, ?bmax_nil_r; reflexivity.
  - rewrite E2, Yu, Yv. destruct by_, cy; cbn [orb sizes]; rewrite ?bmax_idem, ?bmax_nil_r; reflexivity.
  - rewrite E3, E4. destruct bn; cbn [orb].
    + intros _. destruct (Eu eq_refl) as [-> ->]. split; apply bmax_full; auto.
    + intros Hc. destruct (Ev Hc) as [-> ->]. split; apply bmax_full; auto.
Qed.
(** .sum() *)
Lemma sumR_prod (f : idx -> idx -> R) l l' : sumR (map (fun '(a, b) => f a b) (list_prod l l')) = Rsum (fun a => Rsum (f a) l') l.
Proof.
  induction l as [|a l IH]; [reflexivity|]. rewrite Rsum_cons, <- IH. cbn [list_prod]. rewrite map_app, map_map.
  assert (SA : forall p q : list R, sumR (p ++ q) = sumR p + sumR q) by (induction p as [|z p IHp]; intros q; unfold sumR in *; cbn [app fold_right]; [ring|rewrite IHp; ring]).
  rewrite SA. reflexivity.
Qed.
Lemma wv_sum S v F : spos S -> wv true true true S v F ->
  exists t, psum v true = Ok (PT t) /\ wf t /\ xm t = [] /\ ym t = [] /\ shape_of (den t) = SH (SX S) (SY S) [] [] /\
    forall x y, In x (indices (SX S)) -> In y (indices (SY S)) -> at_ (den t) x y [] [] = Rsum (fun n => Rsum (fun d => F x y n d) (indices (SD S))) (indices (SN S)).
Proof.
  intros PS [Fv Nv Tv Xv Yv Ev]. destruct (Ev eq_refl) as [En Ed]. cbn [sizes] in Xv, Yv.
  assert (E : exists t, psum v true = Ok (PT t) /\ wf t /\ xm t = [] /\ ym t = [] /\ dsame (den t) (dsum_axes (vden v) true true)).
  { destruct v as [c|a|t|g]; [destruct Fv|destruct Fv| |].
    - destruct (tsum_ok t true (ft_wf _ _ Fv) (ft_feat _ _ Fv)) as (r & Er & Q). exists r. cbn [psum]. rewrite Er. auto.
    - destruct Nv as (G1 & G2 & G3 & G4 & G5 & G6). destruct (gsum_ok S g true PS Fv) as (r & Er & Q); auto.
      + constructor; auto. intros t Ht. destruct (proj1 (Forall_forall _ _) G3 (IT t) Ht t eq_refl) as [Q1 Q2]. rewrite G1, G2. auto.
      + exists r. auto. }
  destruct E as (t & Et & Wt & Mx & My & De). exists t. split; [exact Et|]. split; [exact Wt|]. split; [exact Mx|]. split; [exact My|].
  pose proof De as (E1 & E2 & E3 & E4 & V). cbn [dsum_axes xs ys ns ds] in E1, E2, E3, E4. rewrite Xv in E1. rewrite Yv in E2.
  split; [unfold shape_of; congruence|]. intros x y Hx Hy. rewrite V; [|congruence|congruence|rewrite E3; now left|rewrite E4; now left].
  cbn [dsum_axes at_]. rewrite sumR_prod, En, Ed. apply Rsum_ext. intros n Hn. apply Rsum_ext. intros d Hd.
  rewrite <- (Tv x y n d) by (repeat split; auto). unfold get. rewrite Xv, Yv, En, Ed, !clamp_in; auto.
Qed.
