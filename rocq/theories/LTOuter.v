(** Outer products of gradients, and sums of products over the observations. *)
From Verif Require Import Prelude DenseModel AnalyticSpec DenseProofs NDArray NDProofs TensorModel TensorSpec TensorSpecOps TensorLemmas TensorBasic TensorSum TensorSumMain TensorBin TensorArith TensorShape TensorExpand TensorGeneric TensorGSum TensorGUni TensorDotCore TensorDot TensorUfunc TensorUfuncP FuncModel FuncSpec FTModel FTRep FTRep2 FTRep3 FTVal LTPlain LTProd.
From Coq Require Import Reals Lra.
Import List ListNotations.
Open Scope R_scope.
Section ex.
Context {ex : exdims}.

Lemma nonempty_nil {A} (l : list A) : nonempty l = false -> l = [].
Proof. destruct l; [reflexivity|discriminate]. Qed.
Lemma absent_maps X N D o : xfits (SH [] X N D) o -> xm o = [] /\ sX o = [] /\ xs (den o) = [].
Proof.
  intros H. pose proof (xf_xe _ _ H) as E. cbn [SX] in E. destruct (xfits_dims _ _ H) as (D1 & _). cbn [SX length] in D1. pose proof (wf_groups o (xf_wf _ _ H)) as G.
  assert (S0 : sX o = []) by (apply length_zero_iff_nil; rewrite (g_x _ _ _ _ _ G); auto). split; [|auto].
  apply single_nil. pose proof (wf_x _ (xf_wf _ _ H)) as [Q _]. congruence.
Qed.
Lemma absent_mapsY X N D o : xfits (SH X [] N D) o -> ym o = [] /\ sY o = [] /\ ys (den o) = [].
Proof.
  intros H. pose proof (xf_ye _ _ H) as E. cbn [SY] in E. destruct (xfits_dims _ _ H) as (_ & D1 & _). cbn [SY length] in D1. pose proof (wf_groups o (xf_wf _ _ H)) as G.
  assert (S0 : sY o = []) by (apply length_zero_iff_nil; rewrite (g_y _ _ _ _ _ G); auto). split; [|auto].
  apply single_nil. pose proof (wf_y _ (xf_wf _ _ H)) as [Q _]. congruence.
Qed.
Lemma xprod1 S s o : spos S -> nonscalar S -> xfits (SH (SX S) [] (SN S) (SD S)) s -> xfits (SH [] (SY S) (SN S) (SD S)) o ->
  forall a b, (a = s /\ b = o) \/ (a = o /\ b = s) ->
  exists r, tbin_t a b MUL = Ok (PT r) /\ xfits S r /\ tabeq S (get (den r)) (fun x y n d => get (den s) x y n d * get (den o) x y n d).
Proof.
  intros PS NS Xs Xo a b Hab. destruct (absent_maps _ _ _ _ Xo) as (Mo & So & Do). destruct (absent_mapsY _ _ _ _ Xs) as (Ms & Ss & Ds).
  pose proof PS as (PX & PY & PN & PD).
  assert (Fs : fits S s).
  { pose proof (xfits_fits _ s Xs) as F. destruct F as [W T R A B C D E]; [exact NS|]. constructor; auto. rewrite Ds. now left. }
  assert (Fo : fits S o).
  { pose proof (xfits_fits _ o Xo) as F. destruct F as [W T R A B C D E]; [exact NS|]. constructor; auto. rewrite Do. now left. }
  assert (Mx : same_or_absent (xm a) (xm b) (sX a) (sX b)) by (destruct Hab as [[-> ->]|[-> ->]]; [right; left|right; right]; auto).
  assert (My : same_or_absent (ym a) (ym b) (sY a) (sY b)) by (destruct Hab as [[-> ->]|[-> ->]]; [right; right|right; left]; auto).
  assert (Fa : fits S a) by (destruct Hab as [[-> ->]|[-> ->]]; auto). assert (Fb : fits S b) by (destruct Hab as [[-> ->]|[-> ->]]; auto).
  destruct (tprod S a b MUL PS (or_introl eq_refl) Fa Fb Mx My (or_introl eq_refl)) as (r & Er & Fr & De & Ex & Ey).
  assert (Ex' : xm r = xm s). { rewrite Ex. destruct Hab as [[-> ->]|[-> ->]]; [|now rewrite Mo]. destruct (nonempty (xm s)) eqn:Z; auto. apply nonempty_nil in Z. congruence. }
  assert (Ey' : ym r = ym o). { rewrite Ey. destruct Hab as [[-> ->]|[-> ->]]; [now rewrite Ms|]. destruct (nonempty (ym o)) eqn:Z; auto. apply nonempty_nil in Z. congruence. }
  exists r. split; [exact Er|]. pose proof De as (E1 & E2 & E3 & E4 & _). cbn [dbin xs ys ns ds] in E1, E2, E3, E4.
  assert (XE : xs (den r) = SX S). { rewrite E1. pose proof (xf_xe _ _ Xs) as Q; cbn [SX] in Q. destruct Hab as [[-> ->]|[-> ->]]; rewrite Q, Do; [apply bmax_nil_r|reflexivity]. }
  assert (YE : ys (den r) = SY S). { rewrite E2. pose proof (xf_ye _ _ Xo) as Q; cbn [SY] in Q. destruct Hab as [[-> ->]|[-> ->]]; rewrite Q, Ds; [reflexivity|apply bmax_nil_r]. }
  assert (LN : length (sN r) = length (SN S)).
  { change (sN r) with (ns (den r)). rewrite E3, bmax_len. pose proof (le1_len _ _ (xf_n _ _ Xs)) as Q1. pose proof (le1_len _ _ (xf_n _ _ Xo)) as Q2. cbn [SN] in Q1, Q2.
    destruct Hab as [[-> ->]|[-> ->]]; cbn [den ns]; rewrite Q1, Q2, Nat.max_id; reflexivity. }
  assert (LD : length (sD r) = length (SD S)).
  { change (sD r) with (ds (den r)). rewrite E4, bmax_len. pose proof (le1_len _ _ (xf_d _ _ Xs)) as Q1. pose proof (le1_len _ _ (xf_d _ _ Xo)) as Q2. cbn [SD] in Q1, Q2.
    destruct Hab as [[-> ->]|[-> ->]]; cbn [den ds]; rewrite Q1, Q2, Nat.max_id; reflexivity. }
  destruct (den_x_len r (ft_wf _ _ Fr)) as [L1 L2]. split.
  - constructor; auto; try (apply Fr).
    + split.
      * rewrite Ex', <- L1, XE. destruct (xf_map _ _ Xs) as [Q _]. rewrite Q. destruct (den_x_len s (xf_wf _ _ Xs)) as [Q1 _]. rewrite <- Q1. now rewrite (xf_xe _ _ Xs).
      * rewrite Ey', <- L2, YE. destruct (xf_map _ _ Xo) as [_ Q]. rewrite Q. destruct (den_x_len o (xf_wf _ _ Xo)) as [_ Q1]. rewrite <- Q1. now rewrite (xf_ye _ _ Xo).
    + apply below_len; [apply Fr|exact LN].
    + assert (Q : le1 (sD r) (SD S)) by (apply below_len; [apply Fr|exact LD]). change (sD r) with (ds (den r)) in *. rewrite E4 in Q |- *.
      pose proof (xf_dr _ _ Xs) as Q1. pose proof (xf_dr _ _ Xo) as Q2. cbn [SD] in Q1, Q2. destruct Hab as [[-> ->]|[-> ->]]; apply DR_bmax; assumption.
  - intros x y n d Hi. rewrite (dsame_at S _ _ x y n d De); auto; [|apply wf_dpos, Fr|now apply fits_dbelow]. rewrite get_dbin. cbn [op_fun].
    destruct Hab as [[-> ->]|[-> ->]]; [reflexivity|apply Rmult_comm].
Qed.

Definition anyQ : mcond := fun _ _ => True.
Definition XS (S : shape4) : shape4 := SH (SX S) [] (SN S) (SD S).
Definition YS (S : shape4) : shape4 := SH [] (SY S) (SN S) (SD S).
(** a Tensor times each element *)
Lemma xprod_items S Q (sw : bool) o : spos S -> nonscalar S -> xfits (if sw then XS S else YS S) o -> forall es, Forall (ifit Q (if sw then YS S else XS S)) es ->
  exists es', rmapM (fun e => let! v := item_bin e (IT o) MUL in as_item v) es = Ok es' /\ Forall (ifit anyQ S) es' /\ length es' = length es /\
    forall x y n d, at_shape S x y n d -> gsum_at es' x y n d = gsum_at es x y n d * get (den o) x y n d.
Proof.
  intros PS NS Xo. induction es as [|e es IH]; intros Fe.
  - exists []. split; [reflexivity|]. split; [constructor|]. split; [reflexivity|]. intros. unfold gsum_at. rewrite Rsum_nil. ring.
  - inversion Fe as [|? ? [t [-> [Xt _]]] Fe']; subst. destruct (IH Fe') as (es' & E1 & F1 & L1 & V1).
    assert (H : exists r, tbin_t t o MUL = Ok (PT r) /\ xfits S r /\ tabeq S (get (den r)) (fun x y n d => get (den t) x y n d * get (den o) x y n d)).
    { destruct sw.
      - destruct (xprod1 S o t PS NS Xo Xt t o) as (r & Er & Xr & Vr); [auto|]. exists r. split; [exact Er|]. split; [exact Xr|]. intros x y n d Hi. rewrite Vr; auto. ring.
      - apply (xprod1 S t o PS NS Xt Xo t o). auto. }
    destruct H as (r & Er & Xr & Vr). cbn [rmapM item_bin tbin1]. rewrite Er. cbn [rbind as_item]. rewrite E1. cbn [rbind]. eexists. split; [reflexivity|].
    split; [constructor; [exists r; split; [reflexivity|]; split; [exact Xr|exact I]|exact F1]|]. split; [cbn; congruence|]. intros x y n d Hi. specialize (V1 x y n d Hi). specialize (Vr x y n d Hi).
    unfold gsum_at in *. rewrite !Rsum_cons, V1. cbn [iden]. rewrite Vr. ring.
Qed.
Lemma pf_items Q S v : pf Q S v -> forall g, v = PG g -> Forall (ifit Q S) (els g).
Proof. intros H g ->. apply H. Qed.
(** der[i] * der[j].transpose() *)
Theorem router Q Q' S u v F G : spos S -> nonscalar S -> rep true Q (XS S) u F -> rep true Q' (YS S) v G ->
  exists w, py OMul u v = Ok w /\ rep true anyQ S w (fun x y n d => F x [] n d * G [] y n d).
Proof.
  intros PS NS Ru Rv. destruct (rep_nz _ _ _ _ Ru) as [Pu Tu]. destruct (rep_nz _ _ _ _ Rv) as [Pv Tv].
  assert (Ux : forall x y n d, at_shape S x y n d -> get (vden u) x y n d = F x [] n d).
  { intros x y n d Hi. transitivity (get (vden u) x [] n d); [|apply Tu; destruct Hi as (A & B & C & D); repeat split; auto; now left].
    destruct u as [c|a|s|g]; [destruct Pu|destruct Pu| |]; cbn [vden].
    - destruct Pu as [[Xs _] _]. destruct (absent_mapsY _ _ _ _ Xs) as (_ & _ & Z). unfold get. now rewrite Z.
    - rewrite !get_gden. unfold gsum_at. apply Rsum_ext. intros e He. destruct Pu as (_ & Fe & _). destruct (proj1 (Forall_forall _ _) Fe e He) as (t & -> & Xt & _).
      destruct (absent_mapsY _ _ _ _ Xt) as (_ & _ & Z). cbn [iden]. unfold get. now rewrite Z. }
  assert (Vx : forall x y n d, at_shape S x y n d -> get (vden v) x y n d = G [] y n d).
  { intros x y n d Hi. transitivity (get (vden v) [] y n d); [|apply Tv; destruct Hi as (A & B & C & D); repeat split; auto; now left].
    destruct v as [c|a|s|g]; [destruct Pv|destruct Pv| |]; cbn [vden].
    - destruct Pv as [[Xs _] _]. destruct (absent_maps _ _ _ _ Xs) as (_ & _ & Z). unfold get. now rewrite Z.
    - rewrite !get_gden. unfold gsum_at. apply Rsum_ext. intros e He. destruct Pv as (_ & Fe & _). destruct (proj1 (Forall_forall _ _) Fe e He) as (t & -> & Xt & _).
      destruct (absent_maps _ _ _ _ Xt) as (_ & _ & Z). cbn [iden]. unfold get. now rewrite Z. }
  assert (Fin : forall w, pf anyQ S w -> (forall x y n d, at_shape S x y n d -> get (vden w) x y n d = get (vden u) x y n d * get (vden v) x y n d) ->
     rep true anyQ S w (fun x y n d => F x [] n d * G [] y n d)).
  { intros w Pw Tw. right. split; [exact Pw|]. intros x y n d Hi. rewrite Tw, Ux, Vx; auto. }
  destruct u as [c|a|s|g]; [destruct Pu|destruct Pu| |]; destruct v as [c'|a'|o|h]; try (now destruct Pv); unfold py; cbn [direct]; unfold tbin, gbin; cbv beta iota.
  - destruct Pu as [[Xs _] _]. destruct Pv as [[Xo _] _]. destruct (xprod1 S s o PS NS Xs Xo s o) as (r & Er & Xr & Vr); [auto|]. exists (PT r). split; [exact Er|]. apply Fin.
    + split; [split; [exact Xr|exact I]|]. apply rank_not_zero. apply (xfits_rank S); auto.
    + intros x y n d Hi. cbn [vden]. now rewrite Vr.
  - destruct Pu as [[Xs _] _]. destruct Pv as (NEh & Fh & NSh & G1 & G2 & G3 & G4). cbn [YS SX SY SN SD] in G1, G2, G3, G4.
    destruct (xprod_items S Q' true s PS NS Xs (els h) Fh) as (es' & E1 & F1 & L1 & V1). unfold gbin1. rewrite E1. cbn [rbind rmap]. eexists. split; [reflexivity|]. apply Fin.
    + destruct (xfits_dims _ _ Xs) as (D1 & D2 & D3 & D4). cbn [XS SX SY SN SD] in D1, D2, D3, D4. cbn [pf els gx gy gn gd]. split; [destruct es'; [destruct (els h); [congruence|discriminate]|discriminate]|]. split; [exact F1|]. split; [exact NS|].
      cbn [length] in *. repeat split; lia.
    + intros x y n d Hi. cbn [vden]. rewrite !get_gden. cbn [els]. rewrite V1; auto. ring.
  - destruct Pv as [[Xo _] _]. destruct Pu as (NEh & Fh & NSh & G1 & G2 & G3 & G4). cbn [XS SX SY SN SD] in G1, G2, G3, G4.
    destruct (xprod_items S Q false o PS NS Xo (els g) Fh) as (es' & E1 & F1 & L1 & V1). unfold gbin1. rewrite E1. cbn [rbind rmap]. eexists. split; [reflexivity|]. apply Fin.
    + destruct (xfits_dims _ _ Xo) as (D1 & D2 & D3 & D4). cbn [YS SX SY SN SD] in D1, D2, D3, D4. cbn [pf els gx gy gn gd]. split; [destruct es'; [destruct (els g); [congruence|discriminate]|discriminate]|]. split; [exact F1|]. split; [exact NS|].
      cbn [length] in *. repeat split; lia.
    + intros x y n d Hi. cbn [vden]. rewrite !get_gden. cbn [els]. now rewrite V1.
  - destruct Pu as (NEg & Fg & _ & G1 & G2 & G3 & G4). destruct Pv as (NEh & Fh & _ & H1 & H2 & H3 & H4). cbn [XS YS SX SY SN SD length] in G1, G2, G3, G4, H1, H2, H3, H4.
    unfold gbin_g. set (acc0 := mkG _ _ _ _ []).
    assert (Hl : forall es, Forall (ifit Q' (YS S)) es -> forall acc, Forall (ifit anyQ S) (els acc) -> gle S acc -> (els acc <> [] -> pf anyQ S (PG acc)) ->
      exists g', ofold (fun acc e => let! ge := gbin1 g e MUL in ofold (fun acc e' => gbin1 acc e' ADD) (els ge) acc) es acc = Ok g' /\ gle S g' /\ Forall (ifit anyQ S) (els g') /\
        (els acc <> [] \/ es <> [] -> pf anyQ S (PG g')) /\ tabeq S (get (gden g')) (fun x y n d => get (gden acc) x y n d + gsum_at (els g) x y n d * gsum_at es x y n d)).
    { induction es as [|e es IH]; intros Fe acc Fa La Pa.
      - exists acc. split; [reflexivity|]. split; [exact La|]. split; [exact Fa|]. split; [intros [Z|Z]; [auto|congruence]|]. intros x y n d Hi. unfold gsum_at at 2. rewrite Rsum_nil. ring.
      - inversion Fe as [|? ? [t [-> [Xt _]]] Fe']; subst. cbn [ofold]. unfold gbin1 at 1. destruct (xprod_items S Q false t PS NS Xt (els g) Fg) as (es' & E1 & F1 & L1 & V1). rewrite E1. cbn [rbind els].
        destruct (gaddl anyQ S es' PS NS F1 acc Fa La Pa) as (a' & Ea & La' & Fa' & Pa' & Va). rewrite Ea. cbn [rbind].
        assert (NE' : es' <> []) by (destruct es'; [destruct (els g); [congruence|discriminate]|discriminate]).
        destruct (IH Fe' a' Fa' La' ltac:(intros _; apply Pa'; now right)) as (g' & Eg & Lg & Fg' & Pg & Vg). exists g'. split; [exact Eg|]. split; [exact Lg|]. split; [exact Fg'|].
        split; [|]. { intros _. apply Pg. left. destruct (Pa' (or_intror NE')) as (Z & _). exact Z. }
        intros x y n d Hi. rewrite Vg, Va, V1; auto. assert (C : gsum_at (IT t :: es) x y n d = get (den t) x y n d + gsum_at es x y n d) by (unfold gsum_at; rewrite Rsum_cons; reflexivity). rewrite C. ring. }
    destruct (Hl (els h) Fh acc0) as (g' & Eg & _ & _ & Pg & Vg).
    + constructor.
    + unfold gle, acc0. cbn [gx gy gn gd]. repeat split; lia.
    + intros Z. now destruct Z.
    + exists (PG g'). split; [now rewrite Eg|]. apply Fin; [apply Pg; now right|]. intros x y n d Hi. cbn [vden]. rewrite Vg; auto. rewrite !get_gden. unfold acc0. cbn [els]. unfold gsum_at at 1. rewrite Rsum_nil. ring.
Qed.
End ex.
