(** Sums and products of Tensors and formal sums, some of which are the scalar
    Tensor(0): closed under +, * and transpose, entries as expected. *)
From Verif Require Import Prelude DenseModel AnalyticSpec DenseProofs NDArray NDProofs TensorModel TensorSpec TensorSpecOps TensorLemmas TensorBasic TensorSum TensorSumMain TensorBin TensorArith TensorShape TensorExpand TensorGeneric TensorGSum TensorGUni TensorDotCore TensorDot TensorUfunc TensorUfuncP FuncModel FuncSpec FTModel FTRep FTRep2 FTRep3 FTVal LTPlain LTProd LTOuter.
From Coq Require Import Reals Lra.
Import List ListNotations.
Open Scope R_scope.

(** a tensor that broadcasts to [S], or Tensor(0) *)
Definition okt (S : shape4) (t : tensor) : Prop := fits S t \/ zval (PT t).
Definition oki (S : shape4) (e : item) : Prop := exists t, e = IT t /\ okt S t.
Definition mc (S : shape4) (v : pval) : Prop :=
  match v with PT t => okt S t | PG g => els g <> [] /\ Forall (oki S) (els g) | _ => False end.
(** what [sum] returns: 0 for the empty sum *)
Definition nmc (S : shape4) (v : pval) : Prop := v = PNum 0 \/ mc S v.
Lemma zget z x y n d : zval (PT z) -> get (den z) x y n d = 0.
Proof. intros Z. exact (zval_get (PT z) x y n d Z). Qed.

Lemma fits_retensor S t v (f : R -> R) : fits S t -> shp v = shp (tv t) -> (forall i, In i (indices (shp (tv t))) -> el v i = f (el (tv t) i)) ->
  (forall v e1 e2, (e1 = 0 \/ e1 = 1) -> (e2 = 0 \/ e2 = 1) -> f v * e1 * e2 = f (v * e1 * e2)) ->
  exists r, Tensor v (xd t) (yd t) (dm t) (xm t) (ym t) = Ok r /\ fits S r /\ tabeq S (get (den r)) (fun x y n d => f (get (den t) x y n d)).
Proof.
  intros F E Ev Hf. pose proof (ft_wf _ _ F) as W. destruct (retensor t v W E) as (r & Er & Wr & D1 & D2 & D3 & D4 & Mx & My & Et & E1 & E2 & E3 & E4).
  exists r. split; [exact Er|]. assert (Es : shp (tv r) = shp (tv t)) by (rewrite Et; exact E).
  assert (ESX : sX r = sX t) by (unfold sX; rewrite Es, D1; reflexivity).
  assert (ESY : sY r = sY t) by (unfold sY; rewrite Es, D1, D2; reflexivity).
  assert (ESN : sN r = sN t) by (unfold sN; rewrite Es, D1, D2, D3; reflexivity).
  assert (ESD : sD r = sD t) by (unfold sD; rewrite Es, D1, D2, D3; reflexivity).
  pose proof F as [_ T Rk A B C D Fu]. split.
  - constructor; rewrite ?E1, ?E2, ?ESN, ?ESD, ?Es, ?Mx, ?My; auto. unfold to_features. rewrite Mx, My, D3. exact T.
  - intros x y n d (H1 & H2 & H3 & H4). rewrite !get_den by assumption. cbn [den xs ys]. rewrite ESX, ESY, ESN, ESD, Mx, My.
    pose proof (wf_groups t W) as G. destruct (wf_pos4 t W) as (P1 & P2 & P3 & P4). pose proof (wf_den_pos t W) as (Q1 & Q2 & Q3 & Q4). cbn [den xs ys] in Q1, Q2, A, B.
    rewrite Et, Ev; [apply Hf; apply deltas_01|]. rewrite (g_shp _ _ _ _ _ G). repeat apply in_indices_app2.
    + apply (stored_in _ _ (sN t ++ sD t)); [apply (wf_x _ W)|exact P1|]. apply (below_in _ (SX S)); auto.
    + apply (stored_in _ _ (sN t ++ sD t)); [apply (wf_y _ W)|exact P2|]. apply (below_in _ (SY S)); auto.
    + apply (below_in _ (SN S)); auto.
    + apply (below_in _ (SD S)); auto.
Qed.
Lemma zero_op S z t op : op = ADD \/ op = MUL -> zval (PT z) -> fits S t ->
  exists r, tbin_t z t op = Ok (PT r) /\ fits S r /\ tabeq S (get (den r)) (fun x y n d => op_fun op 0 (get (den t) x y n d)).
Proof.
  intros Hop (z' & Ez & S0 & V & _) F. injection Ez as <-. unfold tbin_t. pose proof (ft_rank _ _ F) as Rk. destruct (shp (tv t)) as [|s0 sh] eqn:Est; [congruence|].
  unfold tbin_tensor. rewrite S0. destruct (np_bin_scalar (op_fun op) (tv z) (tv t) S0) as (a & Ea & Sa & Va); [apply (wf_pos _ (ft_wf _ _ F))|].
  rewrite Ea. cbn [rbind]. rewrite V in Va. destruct (fits_retensor S t a (op_fun op 0) F Sa Va) as (r & Er & Fr & Tr).
  { intros v e1 e2 _ _. destruct Hop as [-> | ->]; cbn [op_fun]; ring. }
  rewrite Er. cbn [rbind]. exists r. auto.
Qed.

(** *** addition *)
Lemma okt_add S s o : spos S -> okt S s -> okt S o ->
  exists v, tbin_t s o ADD = Ok v /\ mc S v /\ (isT v = true -> True) /\ tabeq S (get (vden v)) (fun x y n d => get (den s) x y n d + get (den o) x y n d).
Proof.
  intros PS Hs [Fo|Zo].
  - destruct Hs as [Fs|Zs].
    + destruct (tadd_any S s o ADD PS Fs Fo (or_introl eq_refl)) as (v & Ev & Fv & De). exists v. split; [exact Ev|]. destruct (vden_below S v PS Fv) as [Bv Pv].
      split; [|split; [auto|]].
      * destruct v as [c|a|t|g]; [destruct Fv|destruct Fv|left; exact Fv|]. cbn [mc]. split.
        -- intros Z. unfold tbin_t, tbin_tensor in Ev. pose proof (ft_rank _ _ Fs) as R1. pose proof (ft_rank _ _ Fo) as R2. destruct (shp (tv o)); [congruence|]. destruct (shp (tv s)); [congruence|].
           cbn [additive op_fun] in Ev. repeat (match type of Ev with (let! _ := ?e in _) = _ => destruct e; [cbn [rbind] in Ev|discriminate] end).
           destruct (map_eqb _ _ && map_eqb _ _).
           ++ repeat (match type of Ev with (let! _ := ?e in _) = _ => destruct e; [cbn [rbind] in Ev|discriminate] end). discriminate.
           ++ injection Ev as <-. discriminate.
        -- eapply Forall_impl; [|exact Fv]. intros e (t & -> & Ft). exists t. split; [reflexivity|now left].
      * intros x y n d Hi. rewrite (dsame_at S _ _ x y n d De); auto. now rewrite get_dbin.
    + destruct (zero_op S s o ADD (or_introl eq_refl) Zs Fo) as (r & Er & Fr & Tr). exists (PT r). split; [exact Er|]. split; [now left|]. split; [auto|].
      intros x y n d Hi. cbn [vden]. rewrite Tr by exact Hi. cbn [op_fun]. now rewrite (zget s).
  - exists (PT s). split; [now apply tadd_zero|]. split; [exact Hs|]. split; [auto|]. intros x y n d Hi. cbn [vden]. rewrite (zget o) by exact Zo. ring.
Qed.
Lemma absorb_mc S o : spos S -> okt S o -> forall es, Forall (oki S) es ->
  exists es', absorb es (IT o) ADD (Ok (IT o)) = Ok es' /\ Forall (oki S) es' /\ es' <> [] /\
    forall x y n d, at_shape S x y n d -> gsum_at es' x y n d = gsum_at es x y n d + get (den o) x y n d.
Proof.
  intros PS Fo. induction es as [|e es IH]; intros A; cbn [absorb rbind].
  - exists [IT o]. split; [reflexivity|]. split; [constructor; [exists o; auto|constructor]|]. split; [discriminate|].
    intros. unfold gsum_at. rewrite Rsum_cons, !Rsum_nil. cbn [iden]. ring.
  - inversion A as [|? ? (t & -> & Ft) A']; subst. cbn [item_bin tbin1]. destruct (okt_add S t o PS Ft Fo) as (v & Ev & Mv & _ & Tv).
    rewrite Ev. cbn [rbind]. destruct v as [c|a|r|g]; [destruct Mv|destruct Mv| |].
    + exists (IT r :: es). split; [reflexivity|]. split; [constructor; [exists r; auto|exact A']|]. split; [discriminate|].
      intros x y n d Hi. unfold gsum_at. rewrite !Rsum_cons. cbn [iden]. specialize (Tv x y n d Hi). cbn [vden] in Tv. rewrite Tv. ring.
    + destruct (IH A') as (es' & E & F' & _ & V'). rewrite E. cbn [rbind]. exists (IT t :: es'). split; [reflexivity|].
      split; [constructor; [exists t; auto|exact F']|]. split; [discriminate|].
      intros x y n d Hi. unfold gsum_at in *. rewrite !Rsum_cons, V' by auto. ring.
Qed.
Lemma gadd_mc S g o : spos S -> okt S o -> Forall (oki S) (els g) ->
  exists g', gbin1 g (IT o) ADD = Ok g' /\ els g' <> [] /\ Forall (oki S) (els g') /\ tabeq S (get (gden g')) (fun x y n d => get (gden g) x y n d + get (den o) x y n d).
Proof.
  intros PS Ho Hg. unfold gbin1. destruct (absorb_mc S o PS Ho (els g) Hg) as (es' & E & F & Ne & V). rewrite E. cbn [rbind]. eexists. split; [reflexivity|]. cbn [els].
  split; [exact Ne|]. split; [exact F|]. intros x y n d Hi. rewrite !get_gden. cbn [els]. now apply V.
Qed.
Lemma gaddl_mc S h : spos S -> Forall (oki S) h -> forall g, Forall (oki S) (els g) ->
  exists g', ofold (fun acc e => gbin1 acc e ADD) h g = Ok g' /\ (els g <> [] \/ h <> [] -> els g' <> []) /\ Forall (oki S) (els g') /\
    tabeq S (get (gden g')) (fun x y n d => get (gden g) x y n d + gsum_at h x y n d).
Proof.
  intros PS. induction h as [|e h IH]; intros A g Ag; cbn [ofold].
  - exists g. split; [reflexivity|]. split; [intros [Z|Z]; [auto|congruence]|]. split; [exact Ag|]. intros x y n d Hi. unfold gsum_at. rewrite Rsum_nil. ring.
  - inversion A as [|? ? (t & -> & Ft) A']; subst. destruct (gadd_mc S g t PS Ft Ag) as (g1 & E1 & N1 & A1 & V1). rewrite E1. cbn [rbind].
    destruct (IH A' g1 A1) as (g' & E & N' & Ag' & V'). exists g'. split; [exact E|]. split; [intros _; apply N'; now left|]. split; [exact Ag'|].
    intros x y n d Hi. rewrite (V' x y n d Hi), (V1 x y n d Hi). unfold gsum_at. rewrite Rsum_cons. cbn [iden]. ring.
Qed.
Theorem mc_add S u v : spos S -> mc S u -> mc S v ->
  exists w, py OAdd u v = Ok w /\ mc S w /\ tabeq S (get (vden w)) (fun x y n d => get (vden u) x y n d + get (vden v) x y n d).
Proof.
  intros PS Hu Hv. destruct u as [c|a|s|g]; [destruct Hu|destruct Hu| |]; destruct v as [c'|a'|o|h]; try (now destruct Hv); unfold py; cbn [direct]; unfold tbin, gbin; cbv beta iota.
  - destruct (okt_add S s o PS Hu Hv) as (w & Ew & Mw & _ & Tw). exists w. auto.
  - destruct Hv as [Ne Hh]. destruct (gadd_mc S h s PS Hu Hh) as (g' & E & N' & F' & V'). rewrite E. cbn [rmap]. exists (PG g'). split; [reflexivity|]. split; [split; assumption|].
    intros x y n d Hi. cbn [vden]. rewrite V' by exact Hi. ring.
  - destruct Hu as [Ne Hg]. destruct (gadd_mc S g o PS Hv Hg) as (g' & E & N' & F' & V'). rewrite E. cbn [rmap]. exists (PG g'). split; [reflexivity|]. split; [split; assumption|].
    intros x y n d Hi. cbn [vden]. now rewrite V' by exact Hi.
  - destruct Hu as [Ne Hg]. destruct Hv as [Ne' Hh]. unfold gbin_g. destruct (gaddl_mc S (els h) PS Hh g Hg) as (g' & E & N' & F' & V'). rewrite E. cbn [rmap]. exists (PG g'). split; [reflexivity|].
    split; [split; [apply N'; now left|exact F']|]. intros x y n d Hi. cbn [vden]. rewrite V' by exact Hi. now rewrite (get_gden h).
Qed.
Lemma mc_addr0 S v : mc S v -> py OAdd v (PNum 0) = Ok v /\ py OAdd (PNum 0) v = Ok v.
Proof.
  intros Hv. destruct v as [c|a|t|g]; [destruct Hv|destruct Hv| |]; unfold py; cbn [direct reflected]; unfold tbin, gbin; cbv beta iota; [unfold tbin1; rewrite tadd_num0; split; reflexivity|].
  destruct Hv as [Ne F]. unfold gbin1. destruct g as [gx gy gn gd [|e es]]; [now destruct Ne|]. cbn [els absorb]. inversion F as [|? ? (t & -> & _) _]; subst.
  cbn [item_bin tbin1]. rewrite tadd_num0. cbn [rbind rmap TensorModel.gx TensorModel.gy TensorModel.gn TensorModel.gd]. auto.
Qed.
Lemma get_num c x y n d : get (vden (PNum c)) x y n d = c.
Proof. reflexivity. Qed.
Theorem nmc_add S u v : spos S -> nmc S u -> nmc S v ->
  exists w, py OAdd u v = Ok w /\ nmc S w /\ (mc S u \/ mc S v -> mc S w) /\ tabeq S (get (vden w)) (fun x y n d => get (vden u) x y n d + get (vden v) x y n d).
Proof.
  intros PS [->|Hu] [->|Hv].
  - exists (PNum (0 + 0)). split; [reflexivity|]. split; [left; f_equal; ring|]. split; [intros [[]|[]]|]. intros x y n d _. rewrite !get_num. ring.
  - exists v. split; [now apply (mc_addr0 S)|]. split; [now right|]. split; [auto|]. intros x y n d _. rewrite !get_num. ring.
  - exists u. split; [now apply (mc_addr0 S)|]. split; [now right|]. split; [auto|]. intros x y n d _. rewrite !get_num. ring.
  - destruct (mc_add S u v PS Hu Hv) as (w & E & M & T). exists w. split; [exact E|]. split; [now right|]. auto.
Qed.
(** Python's sum *)
Theorem nmc_fold S (vs : list pval) : spos S -> Forall (mc S) vs -> forall u, nmc S u ->
  exists w, ofold (py OAdd) vs u = Ok w /\ nmc S w /\ (mc S u \/ vs <> [] -> mc S w) /\
    tabeq S (get (vden w)) (fun x y n d => get (vden u) x y n d + Rsum (fun v => get (vden v) x y n d) vs).
Proof.
  intros PS. induction vs as [|v vs IH]; intros F u Hu; cbn [ofold].
  - exists u. split; [reflexivity|]. split; [exact Hu|]. split; [intros [H|H]; [exact H|congruence]|]. intros x y n d _. rewrite Rsum_nil. ring.
  - inversion F as [|? ? Hv F']; subst. destruct (nmc_add S u v PS Hu (or_intror Hv)) as (w1 & E1 & N1 & M1 & T1). rewrite E1. cbn [rbind].
    destruct (IH F' w1 N1) as (w & E & N & M & T). exists w. split; [exact E|]. split; [exact N|]. split; [intros _; apply M; left; auto|].
    intros x y n d Hi. rewrite T, T1 by exact Hi. rewrite Rsum_cons. ring.
Qed.
Corollary nmc_sum S vs : spos S -> Forall (mc S) vs ->
  exists w, pysum vs = Ok w /\ nmc S w /\ (vs <> [] -> mc S w) /\ tabeq S (get (vden w)) (fun x y n d => Rsum (fun v => get (vden v) x y n d) vs).
Proof.
  intros PS F. destruct (nmc_fold S vs PS F (PNum 0) (or_introl eq_refl)) as (w & E & N & M & T). exists w. split; [exact E|]. split; [exact N|]. split; [auto|].
  intros x y n d Hi. rewrite T by exact Hi. rewrite get_num. ring.
Qed.

(** *** multiplication *)
(** the axes of each parameter group are present in at most one operand, or they are stored the same way *)
Definition pm (s o : tensor) : Prop :=
  same_or_absent (xm s) (xm o) (sX s) (sX o) /\ same_or_absent (ym s) (ym o) (sY s) (sY o).
Lemma sa_sym a b p q : same_or_absent a b p q -> same_or_absent b a q p.
Proof. intros [H|[H|H]]; [left; now symmetry|right; right; exact H|right; left; exact H]. Qed.
Lemma pm_sym s o : pm s o -> pm o s.
Proof. intros [A B]. split; now apply sa_sym. Qed.
Lemma tmul_zero t z : zval (PT z) -> tbin_t t z MUL = Ok (PT (tnum 0)).
Proof. intros (z' & E & S0 & V & _). injection E as <-. unfold tbin_t. rewrite S0. unfold tbin_num. rewrite V. destruct (Req_EM_T 0 0); [reflexivity|congruence]. Qed.
Lemma okt_mul S s o : spos S -> okt S s -> okt S o -> pm s o ->
  exists r, tbin_t s o MUL = Ok (PT r) /\ okt S r /\ tabeq S (get (den r)) (fun x y n d => get (den s) x y n d * get (den o) x y n d).
Proof.
  intros PS Hs Ho [P1 P2]. destruct Ho as [Fo|Zo].
  - destruct Hs as [Fs|Zs].
    + destruct (tprod S s o MUL PS (or_introl eq_refl) Fs Fo P1 P2 (or_introl eq_refl)) as (r & Er & Fr & De & _). exists r. split; [exact Er|]. split; [now left|].
      intros x y n d Hi. rewrite (dsame_at S _ _ x y n d De); auto; [|apply wf_dpos, Fr|now apply fits_dbelow]. now rewrite get_dbin.
    + destruct (zero_op S s o MUL (or_intror eq_refl) Zs Fo) as (r & Er & Fr & Tr). exists r. split; [exact Er|]. split; [now left|].
      intros x y n d Hi. rewrite Tr by exact Hi. cbn [op_fun]. now rewrite (zget s).
  - exists (tnum 0). split; [now apply tmul_zero|]. split; [right; apply zval_tnum|]. intros x y n d Hi. rewrite (zget o) by exact Zo. rewrite (zget (tnum 0)) by apply zval_tnum. ring.
Qed.
Lemma mul_items S o : spos S -> okt S o -> forall es, Forall (oki S) es -> (forall t, In (IT t) es -> pm t o) ->
  exists es', rmapM (fun e => let! v := item_bin e (IT o) MUL in as_item v) es = Ok es' /\ Forall (oki S) es' /\ length es' = length es /\
    forall x y n d, at_shape S x y n d -> gsum_at es' x y n d = gsum_at es x y n d * get (den o) x y n d.
Proof.
  intros PS Ho. induction es as [|e es IH]; intros Fe Pm.
  - exists []. split; [reflexivity|]. split; [constructor|]. split; [reflexivity|]. intros. unfold gsum_at. rewrite Rsum_nil. ring.
  - inversion Fe as [|? ? (t & -> & Ft) Fe']; subst. destruct (IH Fe') as (es' & E1 & F1 & L1 & V1); [intros u Hu; apply Pm; now right|].
    destruct (okt_mul S t o PS Ft Ho (Pm t (or_introl eq_refl))) as (r & Er & Mr & Vr). cbn [rmapM item_bin tbin1]. rewrite Er. cbn [rbind as_item]. rewrite E1. cbn [rbind]. eexists. split; [reflexivity|].
    split; [constructor; [exists r; auto|exact F1]|]. split; [cbn; congruence|]. intros x y n d Hi. specialize (V1 x y n d Hi). specialize (Vr x y n d Hi).
    unfold gsum_at in *. rewrite !Rsum_cons, V1. cbn [iden]. rewrite Vr. ring.
Qed.
Theorem mc_mul S u v : spos S -> mc S u -> mc S v -> (forall s o, tin s u -> tin o v -> pm s o) ->
  exists w, py OMul u v = Ok w /\ mc S w /\ tabeq S (get (vden w)) (fun x y n d => get (vden u) x y n d * get (vden v) x y n d).
Proof.
  intros PS Hu Hv P. destruct u as [c|a|s|g]; [destruct Hu|destruct Hu| |]; destruct v as [c'|a'|o|h]; try (now destruct Hv); unfold py; cbn [direct]; unfold tbin, gbin; cbv beta iota.
  - destruct (okt_mul S s o PS Hu Hv (P s o eq_refl eq_refl)) as (r & Er & Mr & Vr). exists (PT r). auto.
  - destruct Hv as [Ne Hh]. destruct (mul_items S s PS Hu (els h) Hh) as (es' & E1 & F1 & L1 & V1); [intros t Ht; apply pm_sym, P; [reflexivity|exact Ht]|].
    unfold gbin1. rewrite E1. cbn [rbind rmap]. eexists. split; [reflexivity|]. split; [split; [cbn [els]; destruct es'; [destruct (els h); [congruence|discriminate]|discriminate]|exact F1]|].
    intros x y n d Hi. cbn [vden]. rewrite !get_gden. cbn [els]. rewrite V1 by exact Hi. ring.
  - destruct Hu as [Ne Hg]. destruct (mul_items S o PS Hv (els g) Hg) as (es' & E1 & F1 & L1 & V1); [intros t Ht; apply P; [exact Ht|reflexivity]|].
    unfold gbin1. rewrite E1. cbn [rbind rmap]. eexists. split; [reflexivity|]. split; [split; [cbn [els]; destruct es'; [destruct (els g); [congruence|discriminate]|discriminate]|exact F1]|].
    intros x y n d Hi. cbn [vden]. rewrite !get_gden. cbn [els]. now rewrite V1 by exact Hi.
  - destruct Hu as [NEg Fg]. destruct Hv as [NEh Fh]. unfold gbin_g. set (acc0 := mkG _ _ _ _ []).
    assert (Hl : forall es, Forall (oki S) es -> (forall s o, In (IT s) (els g) -> In (IT o) es -> pm s o) -> forall acc, Forall (oki S) (els acc) ->
      exists g', ofold (fun acc e => let! ge := gbin1 g e MUL in ofold (fun acc e' => gbin1 acc e' ADD) (els ge) acc) es acc = Ok g' /\ Forall (oki S) (els g') /\
        (els acc <> [] \/ es <> [] -> els g' <> []) /\ tabeq S (get (gden g')) (fun x y n d => get (gden acc) x y n d + gsum_at (els g) x y n d * gsum_at es x y n d)).
    { induction es as [|e es IH]; intros Fe Pe acc Fa.
      - exists acc. split; [reflexivity|]. split; [exact Fa|]. split; [intros [Z|Z]; [auto|congruence]|]. intros x y n d Hi. unfold gsum_at at 2. rewrite Rsum_nil. ring.
      - inversion Fe as [|? ? (t & -> & Xt) Fe']; subst. cbn [ofold]. unfold gbin1 at 1.
        destruct (mul_items S t PS Xt (els g) Fg) as (es' & E1 & F1 & L1 & V1); [intros u Hu; apply Pe; [exact Hu|now left]|]. rewrite E1. cbn [rbind els].
        destruct (gaddl_mc S es' PS F1 acc Fa) as (a' & Ea & Na & Fa' & Va). rewrite Ea. cbn [rbind].
        assert (NE' : es' <> []) by (destruct es'; [destruct (els g); [congruence|discriminate]|discriminate]).
        destruct (IH Fe' ltac:(intros; apply Pe; [assumption|now right]) a' Fa') as (g' & Eg & Fg' & Pg & Vg). exists g'. split; [exact Eg|]. split; [exact Fg'|].
        split; [intros _; apply Pg; left; apply Na; now right|].
        intros x y n d Hi. rewrite Vg, Va, V1; auto. assert (C : gsum_at (IT t :: es) x y n d = get (den t) x y n d + gsum_at es x y n d) by (unfold gsum_at; rewrite Rsum_cons; reflexivity). rewrite C. ring. }
    destruct (Hl (els h) Fh ltac:(intros s o Hs Ho; exact (P s o Hs Ho)) acc0) as (g' & Eg & Fg' & Pg & Vg); [constructor|].
    exists (PG g'). split; [now rewrite Eg|]. split; [split; [apply Pg; now right|exact Fg']|].
    intros x y n d Hi. cbn [vden]. rewrite Vg; auto. rewrite !get_gden. unfold acc0. cbn [els]. unfold gsum_at at 1. rewrite Rsum_nil. ring.
Qed.
Lemma mc_num1 S v : mc S v -> py OMul (PNum 1) v = Ok v.
Proof.
  intros Hv. assert (E1 : forall t, tbin_num t 1 MUL = Ok t).
  { intros t. unfold tbin_num. destruct (Req_EM_T 1 0); [lra|]. destruct (Req_EM_T 1 1); [reflexivity|congruence]. }
  destruct v as [c|a|t|g]; [destruct Hv|destruct Hv| |]; unfold py; cbn [reflected]; unfold tbin, gbin; cbv beta iota; [unfold tbin1; now rewrite E1|].
  destruct Hv as [_ F]. unfold gbin1. assert (E : rmapM (fun e => let! v := item_bin e (INum 1) MUL in as_item v) (els g) = Ok (els g)).
  { induction F as [|e es (t & -> & _) F IH]; [reflexivity|]. cbn [rmapM item_bin tbin1]. rewrite E1. cbn [rbind as_item]. rewrite IH. reflexivity. }
  rewrite E. cbn [rbind rmap]. destruct g; reflexivity.
Qed.

(** *** absent groups *)
Lemma fits_absent_y X N D t : fits (SH X [] N D) t -> ym t = [] /\ sY t = [] /\ ys (den t) = [] /\ yd t = 0%nat.
Proof.
  intros F. assert (E : ys (den t) = []) by (destruct (ft_y _ _ F) as [E|E]; [exact E|now inversion E]).
  destruct (fits_lens _ _ F) as (_ & L & _). rewrite E in L. pose proof (wf_groups t (ft_wf _ _ F)) as G.
  assert (S0 : sY t = []) by (apply length_zero_iff_nil; rewrite (g_y _ _ _ _ _ G); now symmetry). repeat split; auto.
  apply single_nil. pose proof (wf_y _ (ft_wf _ _ F)) as [Q _]. congruence.
Qed.
Lemma fits_absent_x Y N D t : fits (SH [] Y N D) t -> xm t = [] /\ sX t = [] /\ xs (den t) = [] /\ xd t = 0%nat.
Proof.
  intros F. assert (E : xs (den t) = []) by (destruct (ft_x _ _ F) as [E|E]; [exact E|now inversion E]).
  destruct (fits_lens _ _ F) as (L & _). rewrite E in L. pose proof (wf_groups t (ft_wf _ _ F)) as G.
  assert (S0 : sX t = []) by (apply length_zero_iff_nil; rewrite (g_x _ _ _ _ _ G); now symmetry). repeat split; auto.
  apply single_nil. pose proof (wf_x _ (ft_wf _ _ F)) as [Q _]. congruence.
Qed.
Lemma okt_absent_y X N D t : okt (SH X [] N D) t -> ym t = [] /\ sY t = [] /\ ys (den t) = [].
Proof.
  intros [F|(t' & E & S0 & V & X0 & Y0 & N0 & D0 & Mx & My)]; [destruct (fits_absent_y _ _ _ _ F) as (A & B & C & _); auto|]. injection E as <-.
  assert (sY t = []) by (unfold sY; rewrite S0, Y0; now destruct (xd t)). split; [exact My|]. split; [assumption|]. cbn [den ys]. now rewrite H, My.
Qed.
Lemma okt_absent_x Y N D t : okt (SH [] Y N D) t -> xm t = [] /\ sX t = [] /\ xs (den t) = [].
Proof.
  intros [F|(t' & E & S0 & V & X0 & Y0 & N0 & D0 & Mx & My)]; [destruct (fits_absent_x _ _ _ _ F) as (A & B & C & _); auto|]. injection E as <-.
  assert (sX t = []) by (unfold sX; rewrite S0; now destruct (xd t)). split; [exact Mx|]. split; [assumption|]. cbn [den xs]. now rewrite H, Mx.
Qed.
Lemma mc_tin S v t : mc S v -> tin t v -> okt S t.
Proof.
  intros Hv Ht. destruct v as [c|a|s|g]; [destruct Hv|destruct Hv| |]; cbn [tin] in Ht; [now subst t|].
  destruct Hv as [_ F]. destruct (proj1 (Forall_forall _ _) F _ Ht) as (u & E & H). injection E as <-. exact H.
Qed.
Lemma mc_noy X N D v x y n d : mc (SH X [] N D) v -> get (vden v) x y n d = get (vden v) x [] n d.
Proof.
  intros Hv. destruct v as [c|a|s|g]; [destruct Hv|destruct Hv| |]; cbn [vden].
  - destruct (okt_absent_y _ _ _ _ Hv) as (_ & _ & Z). unfold get. now rewrite Z.
  - rewrite !get_gden. unfold gsum_at. apply Rsum_ext. intros e He. destruct Hv as [_ F]. destruct (proj1 (Forall_forall _ _) F e He) as (t & -> & Ht).
    destruct (okt_absent_y _ _ _ _ Ht) as (_ & _ & Z). cbn [iden]. unfold get. now rewrite Z.
Qed.
Lemma mc_nox Y N D v x y n d : mc (SH [] Y N D) v -> get (vden v) x y n d = get (vden v) [] y n d.
Proof.
  intros Hv. destruct v as [c|a|s|g]; [destruct Hv|destruct Hv| |]; cbn [vden].
  - destruct (okt_absent_x _ _ _ _ Hv) as (_ & _ & Z). unfold get. now rewrite Z.
  - rewrite !get_gden. unfold gsum_at. apply Rsum_ext. intros e He. destruct Hv as [_ F]. destruct (proj1 (Forall_forall _ _) F e He) as (t & -> & Ht).
    destruct (okt_absent_x _ _ _ _ Ht) as (_ & _ & Z). cbn [iden]. unfold get. now rewrite Z.
Qed.
Lemma okt_grow X Y X' Y' N D t : (X = [] \/ X = X') -> (Y = [] \/ Y = Y') -> okt (SH X Y N D) t -> okt (SH X' Y' N D) t.
Proof.
  intros HX HY [F|Z]; [left|now right]. pose proof F as [W T R0 A B C D0 E]. cbn [SX SY SN SD] in *. constructor; cbn [SX SY SN SD]; auto.
  - destruct HX as [->| ->]; [|exact A]. destruct A as [A|A]; left; [exact A|now inversion A].
  - destruct HY as [->| ->]; [|exact B]. destruct B as [B|B]; left; [exact B|now inversion B].
Qed.
Lemma mc_grow X Y X' Y' N D v : (X = [] \/ X = X') -> (Y = [] \/ Y = Y') -> mc (SH X Y N D) v -> mc (SH X' Y' N D) v.
Proof.
  intros HX HY Hv. destruct v as [c|a|s|g]; [destruct Hv|destruct Hv| |]; cbn [mc] in *; [eapply okt_grow; eauto|]. destruct Hv as [Ne F]. split; [exact Ne|].
  eapply Forall_impl; [|exact F]. intros e (t & -> & Ht). exists t. split; [reflexivity|]. eapply okt_grow; eauto.
Qed.
(** plain * anything *)
Theorem mc_plmul X Y N D u v : spos (SH X Y N D) -> mc (SH [] [] N D) u -> mc (SH X Y N D) v ->
  exists w, py OMul u v = Ok w /\ mc (SH X Y N D) w /\ tabeq (SH X Y N D) (get (vden w)) (fun x y n d => get (vden u) [] [] n d * get (vden v) x y n d).
Proof.
  intros PS Hu Hv. destruct (mc_mul (SH X Y N D) u v PS) as (w & E & M & T).
  - eapply mc_grow; [| |exact Hu]; now left. - exact Hv.
  - intros s o Hs Ho. pose proof (mc_tin _ _ _ Hu Hs) as K. destruct (okt_absent_x _ _ _ _ K) as (A1 & A2 & _). destruct (okt_absent_y _ _ _ _ K) as (B1 & B2 & _). split; right; right; auto.
  - exists w. split; [exact E|]. split; [exact M|]. intros x y n d Hi. rewrite T by exact Hi. f_equal. rewrite (mc_noy _ _ _ u x y n d Hu). exact (mc_nox _ _ _ u x [] n d Hu).
Qed.
(** gradient * transposed gradient *)
Theorem mc_outer X Y N D u v : spos (SH X Y N D) -> mc (SH X [] N D) u -> mc (SH [] Y N D) v ->
  exists w, py OMul u v = Ok w /\ mc (SH X Y N D) w /\ tabeq (SH X Y N D) (get (vden w)) (fun x y n d => get (vden u) x [] n d * get (vden v) [] y n d).
Proof.
  intros PS Hu Hv. destruct (mc_mul (SH X Y N D) u v PS) as (w & E & M & T).
  - eapply mc_grow; [| |exact Hu]; [now right|now left]. - eapply mc_grow; [| |exact Hv]; [now left|now right].
  - intros s o Hs Ho. destruct (okt_absent_x _ _ _ _ (mc_tin _ _ _ Hv Ho)) as (A1 & A2 & _). destruct (okt_absent_y _ _ _ _ (mc_tin _ _ _ Hu Hs)) as (B1 & B2 & _).
    split; [right; left; auto|right; right; auto].
  - exists w. split; [exact E|]. split; [exact M|]. intros x y n d Hi. rewrite T by exact Hi. rewrite (mc_noy _ _ _ u x y n d Hu). now rewrite (mc_nox _ _ _ v x y n d Hv).
Qed.
(** transpose of a gradient *)
Lemma okt_trans X N D t : spos (SH X [] N D) -> okt (SH X [] N D) t -> exists r, ttranspose t = Ok r /\ okt (SH [] X N D) r /\
  forall x n d, at_shape (SH X [] N D) x [] n d -> get (den r) [] x n d = get (den t) x [] n d.
Proof.
  intros PS [F|Z].
  - pose proof (fits_absent_y _ _ _ _ F) as (My & SY0 & Ey & Yd). pose proof (ft_wf _ _ F) as W. destruct (swapxy_wf t W (or_intror Yd)) as (Wr & Tr & De).
    exists (swapxy t). split; [apply ttranspose_absent; auto|]. pose proof De as (E1 & E2 & E3 & E4 & _). cbn [dtrans xs ys ns ds] in E1, E2, E3, E4. pose proof F as [_ T R0 A B C D0 E]. cbn [SX SY SN SD] in *.
    assert (Fr : fits (SH [] X N D) (swapxy t)).
    { constructor; cbn [SX SY SN SD]; auto.
      - rewrite E1, Ey. now left. - rewrite E2. exact A. - change (sN (swapxy t)) with (ns (den (swapxy t))). rewrite E3. exact C. - change (sD (swapxy t)) with (ds (den (swapxy t))). rewrite E4. exact D0.
      - intros f Hf. change (sN (swapxy t)) with (ns (den (swapxy t))). rewrite E3. apply E. cbn [swapxy xm ym] in Hf. tauto. }
    split; [now left|]. intros x n d (H1 & H2 & H3 & H4). cbn [SX SY SN SD] in *. rewrite (dsame_at (SH [] X N D) _ _ [] x n d De); [|apply wf_dpos, Wr|now apply fits_dbelow|repeat split; auto].
    now rewrite get_dtrans.
  - pose proof Z as (t' & E & S0 & V & X0 & Y0 & N0 & D0 & Mx & My). injection E as <-. unfold ttranspose, Tensor, ndim. rewrite X0, Y0, D0. cbn [Nat.ltb Nat.leb andb rbind]. rewrite S0. cbn [length Nat.add Nat.ltb Nat.leb rmap rbind].
    eexists. split; [reflexivity|]. match goal with |- okt _ ?r /\ _ => assert (Zr : zval (PT r)) by (eexists; split; [reflexivity|]; cbn; repeat split; auto) end.
    split; [now right|]. intros x n d _. now rewrite !zget.
Qed.
Theorem mc_trans X N D v : spos (SH X [] N D) -> mc (SH X [] N D) v -> exists w, ptranspose v = Ok w /\ mc (SH [] X N D) w /\
  forall x n d, at_shape (SH X [] N D) x [] n d -> get (vden w) [] x n d = get (vden v) x [] n d.
Proof.
  intros PS Hv. destruct v as [c|a|t|g]; [destruct Hv|destruct Hv| |]; cbn [ptranspose].
  - destruct (okt_trans X N D t PS Hv) as (r & Er & Hr & Vr). rewrite Er. exists (PT r). auto.
  - destruct Hv as [Ne F]. unfold gtranspose, gmap.
    assert (H : forall es, Forall (oki (SH X [] N D)) es -> exists es', rmapM (on_item (fun t => let! t' := ttranspose t in Ok (IT t'))) es = Ok es' /\ Forall (oki (SH [] X N D)) es' /\ length es' = length es /\
      forall x n d, at_shape (SH X [] N D) x [] n d -> gsum_at es' [] x n d = gsum_at es x [] n d).
    { induction es as [|e es IH]; intros Fe; [exists []; split; [reflexivity|]; split; [constructor|]; split; [reflexivity|]; intros; reflexivity|].
      inversion Fe as [|? ? (t & -> & Ht) Fe']; subst. destruct (IH Fe') as (es' & E & F' & L & V'). destruct (okt_trans X N D t PS Ht) as (r & Er & Hr & Vr).
      cbn [rmapM on_item]. rewrite Er. cbn [rbind]. rewrite E. cbn [rbind]. eexists. split; [reflexivity|]. split; [constructor; [exists r; auto|exact F']|]. split; [cbn; congruence|].
      intros x n d Hi. unfold gsum_at in *. rewrite !Rsum_cons, V' by exact Hi. cbn [iden]. now rewrite Vr. }
    destruct (H (els g) F) as (es' & E & F' & L & V'). rewrite E. cbn [rbind rmap]. eexists. split; [reflexivity|]. split; [split; [cbn [els]; destruct es'; [destruct (els g); [congruence|discriminate]|discriminate]|exact F']|].
    intros x n d Hi. cbn [vden]. rewrite !get_gden. cbn [els]. now apply V'.
Qed.
