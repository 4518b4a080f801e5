(** toarray of a GenericTensor (tensor/tensor.py 229-231): Python's [sum] of the
    dense arrays of the elements. *)
From Verif Require Import Prelude DenseModel AnalyticSpec DenseProofs NDArray NDProofs TensorModel TensorSpec TensorSpecOps TensorLemmas TensorBasic TensorSum TensorSumMain TensorBin TensorArith TensorShape TensorMore TensorGeneric TensorGSum FTRep TensorGOps.
From Coq Require Import Reals Lra.
Import List ListNotations.
Open Scope R_scope.

(** the array [a] holds the dense tensor [D] *)
Definition holds (a : nda) (D : dt) : Prop :=
  shp a = xs D ++ ys D ++ ns D ++ ds D /\
  forall x y n d, In x (indices (xs D)) -> In y (indices (ys D)) -> In n (indices (ns D)) -> In d (indices (ds D)) -> el a (x ++ y ++ n ++ d) = at_ D x y n d.
Definition dlen (S : shape4) (D : dt) : Prop :=
  length (xs D) = length (SX S) /\ length (ys D) = length (SY S) /\ length (ns D) = length (SN S) /\ length (ds D) = length (SD S).
Lemma below_F2 a b S : posl S -> below a S -> below b S -> length a = length S -> length b = length S -> Forall2 bcompat a b.
Proof.
  intros P Ba Bb La Lb. pose proof (below_bok a b S Ba Bb) as [E|[E|E]]; auto; subst; destruct S; try discriminate.
  - destruct b; [constructor|discriminate]. - destruct a; [constructor|discriminate].
Qed.
Lemma clamp_app2 a b x y : length a = length x -> clamp (a ++ b) (x ++ y) = clamp a x ++ clamp b y.
Proof. revert x; induction a as [|s a IH]; intros [|k x] L; try discriminate; [reflexivity|]. cbn [app clamp]. f_equal. apply IH. now injection L. Qed.
Lemma clamp_len a x : length a = length x -> length (clamp a x) = length a.
Proof. revert x; induction a as [|s a IH]; intros [|k x] L; try discriminate; [reflexivity|]. cbn [clamp length]. f_equal. apply IH. now injection L. Qed.
Lemma holds_add S a b D E : spos S -> holds a D -> holds b E -> dpos D -> dpos E -> dbelow S D -> dbelow S E -> dlen S D -> dlen S E ->
  exists r, np_bin Rplus a b = Ok r /\ holds r (dadd D E) /\ dpos (dadd D E) /\ dbelow S (dadd D E) /\ dlen S (dadd D E).
Proof.
  intros (PX & PY & PN & PD) (Sa & Va) (Sb & Vb) (A1 & A2 & A3 & A4) (B1 & B2 & B3 & B4) [C1 C2 C3 C4] [D1 D2 D3 D4] (L1 & L2 & L3 & L4) (M1 & M2 & M3 & M4).
  destruct (np_bin_ok Rplus a b) as (r & Er & Sr & Vr).
  { rewrite Sa, Sb. apply Forall2_app; [now apply (below_F2 _ _ (SX S))|]. apply Forall2_app; [now apply (below_F2 _ _ (SY S))|]. apply Forall2_app; [now apply (below_F2 _ _ (SN S))|now apply (below_F2 _ _ (SD S))]. }
  { rewrite Sa. repeat (apply Forall_app; split); auto. }
  { rewrite Sb. repeat (apply Forall_app; split); auto. }
  exists r. split; [exact Er|].
  assert (Q : xs (dadd D E) = bmax (xs D) (xs E) /\ ys (dadd D E) = bmax (ys D) (ys E) /\ ns (dadd D E) = bmax (ns D) (ns E) /\ ds (dadd D E) = bmax (ds D) (ds E)) by now repeat split.
  destruct Q as (Q1 & Q2 & Q3 & Q4).
  split; [split|].
  - rewrite Sr, Sa, Sb, Q1, Q2, Q3, Q4. rewrite !bmax_app by congruence. reflexivity.
  - rewrite Q1, Q2, Q3, Q4. intros x y n d Hx Hy Hn Hd.
    pose proof (indices_length _ _ Hx) as I1. pose proof (indices_length _ _ Hy) as I2. pose proof (indices_length _ _ Hn) as I3. pose proof (indices_length _ _ Hd) as I4.
    rewrite bmax_length in I1, I2, I3, I4 by congruence.
    rewrite Vr by (unfold ndim; rewrite Sa, !app_length; lia). rewrite Sa, Sb, !clamp_app2 by congruence.
    assert (K : forall g h S i, posl S -> posl g -> posl h -> below g S -> below h S -> In i (indices (bmax g h)) -> In (clamp g i) (indices g) /\ In (clamp h i) (indices h)).
    { intros g h T i PT Pg Ph Bg Bh Hi. split; apply (below_in _ (bmax g h)); auto; [apply (below_max g h T); auto|rewrite bmax_sym; apply (below_max h g T); auto]. }
    destruct (K _ _ _ x PX A1 B1 C1 D1 Hx) as [K1 K1']. destruct (K _ _ _ y PY A2 B2 C2 D2 Hy) as [K2 K2'].
    destruct (K _ _ _ n PN A3 B3 C3 D3 Hn) as [K3 K3']. destruct (K _ _ _ d PD A4 B4 C4 D4 Hd) as [K4 K4'].
    rewrite Va, Vb by auto. reflexivity.
  - unfold dpos, dlen. rewrite Q1, Q2, Q3, Q4. split; [repeat split; now apply bmax_pos|]. split; [constructor; rewrite ?Q1, ?Q2, ?Q3, ?Q4; now apply below_bmax|].
    rewrite !bmax_length by congruence. auto.
Qed.
Lemma holds_fold S es : spos S -> allfit S es -> Forall (fun e => dlen S (iden e)) es -> forall a D, holds a D -> dpos D -> dbelow S D -> dlen S D ->
  exists r, ofold (fun acc e => let! a := match e with IT t => toarray t | INum c => Ok (np_scalar c) | IArr a => Ok a end in np_bin Rplus acc a) es a = Ok r /\
    holds r (fold_left dadd (map iden es) D).
Proof.
  intros PS. induction es as [|e es IH]; intros A L a D Ha P B LD; [exists a; split; [reflexivity|exact Ha]|].
  inversion A as [|? ? (t & -> & Ft) A']; inversion L as [|? ? Lt L']; subst. cbn [iden] in Lt.
  destruct (toarray_den t (ft_wf _ _ Ft)) as (b & Eb & Hb). cbn [ofold]. rewrite Eb. cbn [rbind].
  destruct (holds_add S a b D (den t) PS Ha Hb P (wf_dpos t (ft_wf _ _ Ft)) B (fits_dbelow _ _ Ft) LD Lt) as (r & Er & Hr & P' & B' & L2). rewrite Er. cbn [rbind map fold_left iden].
  exact (IH A' L' r _ Hr P' B' L2).
Qed.
Theorem gtoarray_ok S g : spos S -> gfits S g -> els g <> [] ->
  elements (fun t => xd t = length (SX S) /\ yd t = length (SY S) /\ nn t = length (SN S) /\ dm t = length (SD S)) g ->
  exists a, gtoarray g = Ok a /\ shp a = xs (gden g) ++ ys (gden g) ++ ns (gden g) ++ ds (gden g) /\
    forall x y n d, In x (indices (xs (gden g))) -> In y (indices (ys (gden g))) -> In n (indices (ns (gden g))) -> In d (indices (ds (gden g))) ->
      el a (x ++ y ++ n ++ d) = at_ (gden g) x y n d.
Proof.
  unfold gfits, elements, gtoarray, gden. destruct g as [x0 y0 n0 d0 es]. cbn [els]. intros PS F NE B. destruct es as [|e es]; [easy|]. clear NE.
  assert (L : Forall (fun e => dlen S (iden e)) (e :: es)).
  { apply Forall_forall. intros e' He. pose proof (proj1 (Forall_forall _ _) B e' He) as (t & -> & Q1 & Q2 & Q3 & Q4). pose proof (proj1 (Forall_forall _ _) F _ He) as (t' & Et & Ft). injection Et as <-.
    pose proof (wf_groups t (ft_wf _ _ Ft)) as G. unfold dlen. cbn [iden den xs ys ns ds]. rewrite !msizes_length.
    rewrite (g_x _ _ _ _ _ G), (g_y _ _ _ _ _ G), (g_n _ _ _ _ _ G), (g_d _ _ _ _ _ G). auto. }
  inversion F as [|? ? (t & -> & Ft) F']; inversion L as [|? ? Lt L']; subst. cbn [iden] in Lt.
  pose proof (wf_dpos t (ft_wf _ _ Ft)) as Pt. pose proof (fits_dbelow _ _ Ft) as Bt.
  destruct (toarray_den t (ft_wf _ _ Ft)) as (b & Eb & Hb). cbn [ofold]. rewrite Eb. cbn [rbind map fold_left iden].
  assert (Pb : posl (shp b)) by (rewrite (proj1 Hb); destruct Pt as (P1 & P2 & P3 & P4); apply Forall_app; split; [exact P1|]; apply Forall_app; split; [exact P2|]; apply Forall_app; split; [exact P3|exact P4]).
  destruct (np_bin_scalar Rplus (np_scalar 0) b eq_refl Pb) as (r & Er & Sr & Vr). rewrite Er. cbn [rbind].
  apply (holds_fold S es PS F' L' r (dadd dzero (den t))).
  - split; [rewrite Sr; exact (proj1 Hb)|]. cbn [dadd dbin dzero dconst xs ys ns ds bmax at_]. intros x y n d Hx Hy Hn Hd.
    rewrite Vr. { rewrite (proj2 Hb) by assumption. cbn [np_scalar el]. f_equal. unfold get. rewrite (clamp_in _ x Hx), (clamp_in _ y Hy), (clamp_in _ n Hn), (clamp_in _ d Hd). reflexivity. }
    rewrite (proj1 Hb). rewrite !In_indices in *. apply Forall2_app; [exact Hx|]; apply Forall2_app; [exact Hy|]; apply Forall2_app; [exact Hn|exact Hd].
  - exact Pt.
  - destruct Bt. constructor; assumption.
  - exact Lt.
Qed.
