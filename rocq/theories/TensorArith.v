(** Addition, subtraction, multiplication and division of two Tensors. *)
From Verif Require Import Prelude DenseModel AnalyticSpec DenseProofs NDArray NDProofs TensorModel TensorSpec TensorSpecOps TensorLemmas TensorBasic TensorSum TensorSumMain TensorBin.
From Coq Require Import Reals Lra.
Import List ListNotations.
Open Scope R_scope.

Lemma bok_dims A B : bok A B -> dims_ok (length A) (length B) = true.
Proof.
  intros [->|[->|H]]; unfold dims_ok; cbn [length Nat.eqb]; rewrite ?orb_true_r; auto.
  apply Forall2_length' in H. rewrite H, Nat.eqb_refl. now rewrite orb_true_r.
Qed.
Lemma oeqb_refl a : oeqb a a = true. Proof. destruct a; cbn; auto. apply Nat.eqb_refl. Qed.
Lemma map_eqb_eq a b : map_eqb a b = true <-> a = b.
Proof.
  revert b; induction a as [|x a IH]; intros [|y b]; cbn; try (split; congruence).
  rewrite andb_true_iff, IH. split; [intros [E ->]|intros E; injection E as -> ->; split; auto; apply oeqb_refl].
  destruct x as [x|], y as [y|]; cbn in E; try discriminate; auto. apply Nat.eqb_eq in E as ->. auto.
Qed.
Lemma compat_asserts s o : wf s -> wf o -> compat s o ->
  dims_ok (nn s) (nn o) = true /\ dims_ok (dm s) (dm o) = true /\ dims_ok (xd s) (xd o) = true /\ dims_ok (yd s) (yd o) = true.
Proof.
  intros Ws Wo C. destruct (wf_groups s Ws) as [_ L1 L2 L3 L4]. destruct (wf_groups o Wo) as [_ L1' L2' L3' L4'].
  destruct C as [C1 C2 C3 C4 _ _ _ _]. rewrite <- L1, <- L2, <- L3, <- L4, <- L1', <- L2', <- L3', <- L4'. repeat split; now apply bok_dims.
Qed.

(** equal maps: one Tensor *)
Theorem tadd_same s o op : wf s -> wf o -> to_features s -> to_features o -> compat s o -> shp (tv s) <> [] ->
  additive op = true -> xm s = xm o -> ym s = ym o ->
  exists r, tbin_tensor s o op = Ok (PT r) /\ wf r /\ to_features r /\ xm r = xm s /\ ym r = ym s /\
    dsame (den r) (dbin (op_fun op) (den s) (den o)).
Proof.
  intros Ws Wo Fs Fo C R A Ex Ey.
  destruct (bin_den (op_fun op) s o (xm s) (ym s) true true true true) as (l & r & v & t & El & Er & Ev & Et & Wt & Ft & Mx & My & De).
  - constructor; auto; now constructor.
  - intros a b dx dy _ _. cbn [dis]. destruct op; try discriminate A; cbn [op_fun]; ring.
  - destruct (compat_asserts s o Ws Wo C) as (A1 & A2 & A3 & A4).
    exists t. split; [|auto]. unfold tbin_tensor. destruct (shp (tv s)) as [|h0 l0]; [congruence|].
    rewrite A1, A2, A3, A4. cbn [py_assert rbind]. rewrite A.
    replace (map_eqb (xm s) (xm o) && map_eqb (ym s) (ym o)) with true.
    2:{ symmetry. apply andb_true_intro. split; now apply map_eqb_eq. }
    rewrite El. cbn [rbind]. rewrite Er. cbn [rbind]. rewrite Ev. cbn [rbind]. rewrite Et. reflexivity.
Qed.

(** *** dense sums respect dsame *)
Lemma in_clamp_bmax A B i : bok A B -> posl A -> In i (indices (bmax A B)) -> In (clamp A i) (indices A).
Proof.
  revert B i; induction A as [|s A IH]; intros B i H P Hi.
  - now left.
  - inversion P; subst. destruct B as [|s' B].
    + cbn [bmax] in Hi. now rewrite clamp_in.
    + destruct H as [H|[H|H]]; try discriminate. inversion H; subst. cbn [bmax] in Hi.
      destruct i as [|k i]; [now apply indices_length in Hi|]. apply TensorLemmas.in_cons in Hi as [Hk Hi]. cbn [clamp].
      apply TensorLemmas.in_cons. split.
      * unfold clampi. destruct (Nat.leb_spec s 1); [lia|]. unfold bcompat in *. lia.
      * eapply IH; eauto. now right; right.
Qed.
Definition dpos (a : dt) : Prop := posl (xs a) /\ posl (ys a) /\ posl (ns a) /\ posl (ds a).
Lemma dsame_refl a : dsame a a. Proof. unfold dsame. auto 6. Qed.
Lemma dsame_sym a b : dsame a b -> dsame b a.
Proof. intros (E1 & E2 & E3 & E4 & V). unfold dsame. rewrite <- E1, <- E2, <- E3, <- E4. repeat split; auto. intros. symmetry. auto. Qed.
Lemma dsame_trans a b c : dsame a b -> dsame b c -> dsame a c.
Proof.
  intros (E1 & E2 & E3 & E4 & V) (F1 & F2 & F3 & F4 & V'). unfold dsame. repeat split; try congruence.
  intros. rewrite V by auto. apply V'; congruence.
Qed.
Lemma dsame_dbin op op' a a' b b' : dcompat a b -> dpos a -> dpos b -> dsame a a' -> dsame b b' ->
  (forall u v, op u v = op' u v) -> dsame (dbin op a b) (dbin op' a' b').
Proof.
  intros [C1 C2 C3 C4] (P1 & P2 & P3 & P4) (Q1 & Q2 & Q3 & Q4) (E1 & E2 & E3 & E4 & V) (F1 & F2 & F3 & F4 & V') H.
  unfold dsame. cbn [dbin xs ys ns ds at_]. rewrite <- E1, <- E2, <- E3, <- E4, <- F1, <- F2, <- F3, <- F4.
  repeat split; auto. intros x y n d Hx Hy Hn Hd. unfold get. rewrite <- E1, <- E2, <- E3, <- E4, <- F1, <- F2, <- F3, <- F4.
  rewrite H. f_equal.
  - apply V; eapply in_clamp_bmax; eauto.
  - apply V'; eapply in_clamp_bmax; try (rewrite bmax_sym; eauto); auto; now apply bok_sym.
Qed.
Lemma dadd_zero_l a : dpos a -> dsame (dadd dzero a) a.
Proof.
  intros (P1 & P2 & P3 & P4). unfold dsame. cbn [dadd dbin dzero dconst xs ys ns ds at_ bmax]. repeat split; auto.
  intros x y n d Hx Hy Hn Hd. rewrite get_zero. unfold get. rewrite !clamp_in by auto. ring.
Qed.
Lemma dsame_dbin_neg_r a b b' : dcompat a b -> dpos a -> dpos b -> dsame b' (dneg b) -> dsame (dbin Rplus a b') (dbin Rminus a b).
Proof.
  intros C Pa Pb S. pose proof C as [C1 C2 C3 C4]. pose proof Pa as (P1 & P2 & P3 & P4). pose proof Pb as (Q1 & Q2 & Q3 & Q4).
  apply dsame_trans with (dbin Rplus a (dneg b)).
  - destruct S as (F1 & F2 & F3 & F4 & V). cbn [dneg dmap xs ys ns ds] in *. apply dsame_dbin; auto.
    + constructor; rewrite ?F1, ?F2, ?F3, ?F4; auto.
    + unfold dpos. rewrite ?F1, ?F2, ?F3, ?F4; auto.
    + apply dsame_refl.
    + unfold dsame. cbn [dneg dmap xs ys ns ds]. auto.
  - unfold dsame. cbn [dbin dneg dmap xs ys ns ds at_]. repeat split; auto.
Qed.
Lemma wf_dpos t : wf t -> dpos (den t). Proof. apply wf_den_pos. Qed.

(** different maps: a formal sum, whose meaning is the dense sum *)
Theorem tadd_diff s o op : wf s -> wf o -> dcompat (den s) (den o) -> shp (tv s) <> [] ->
  additive op = true -> xm s <> xm o \/ ym s <> ym o ->
  exists v, tbin_tensor s o op = Ok v /\ dsame (vden v) (dbin (op_fun op) (den s) (den o)).
Proof.
  intros Ws Wo C R A Dm. pose proof (wf_dpos s Ws) as Ps. pose proof (wf_dpos o Wo) as Po.
  destruct (wf_groups s Ws) as [_ L1 L2 L3 L4]. destruct (wf_groups o Wo) as [_ L1' L2' L3' L4'].
  destruct (den_groups _ _ _ _ _ (wf_groups s Ws)) as (Dx & Dy & Dn & Dd). destruct (den_groups _ _ _ _ _ (wf_groups o Wo)) as (Dx' & Dy' & Dn' & Dd').
  pose proof C as [C1 C2 C3 C4].
  assert (AX : dims_ok (xd s) (xd o) = true) by (apply bok_dims in C1; rewrite Dx, Dx', !msizes_length, L1, L1' in C1; auto).
  assert (AY : dims_ok (yd s) (yd o) = true) by (apply bok_dims in C2; rewrite Dy, Dy', !msizes_length, L2, L2' in C2; auto).
  assert (AN : dims_ok (nn s) (nn o) = true) by (apply bok_dims in C3; rewrite Dn, Dn', L3, L3' in C3; auto).
  assert (AD : dims_ok (dm s) (dm o) = true) by (apply bok_dims in C4; rewrite Dd, Dd', L4, L4' in C4; auto).
  unfold tbin_tensor. destruct (shp (tv s)) as [|h0 l0] eqn:Es; [congruence|]. rewrite <- Es in *.
  rewrite AX, AY, AN, AD. cbn [py_assert rbind]. rewrite A.
  replace (map_eqb (xm s) (xm o) && map_eqb (ym s) (ym o)) with false.
  2:{ symmetry. apply not_true_is_false. rewrite andb_true_iff, !map_eqb_eq. intros [? ?]. destruct Dm; congruence. }
  assert (Z : forall a b, dcompat (den a) (den b) -> wf a -> wf b -> dsame (gden (mkG (Nat.max (xd s) (xd o)) (Nat.max (yd s) (yd o)) (Nat.max (nn s) (nn o)) (Nat.max (dm s) (dm o)) [IT a; IT b])) (dbin Rplus (den a) (den b))).
  { intros a b Cab Wa Wb. cbn [gden els map iden fold_left]. unfold dadd at 1. apply dsame_dbin; auto.
    - constructor; cbn [dadd dbin dzero dconst xs ys ns ds bmax]; apply Cab.
    - pose proof (wf_dpos a Wa) as Pa. unfold dpos in *; cbn [dadd dbin dzero dconst xs ys ns ds bmax]; auto.
    - now apply wf_dpos.
    - apply dadd_zero_l. now apply wf_dpos.
    - apply dsame_refl. }
  destruct op; try discriminate A; cbn [op_fun].
  - eexists; split; [reflexivity|]. cbn [vden]. now apply Z.
  - destruct (tneg_ok o Wo) as (o' & Eo & Wo' & So). rewrite Eo. cbn [rbind]. eexists; split; [reflexivity|]. cbn [vden].
    pose proof So as (F1 & F2 & F3 & F4 & _). cbn [dneg dmap xs ys ns ds] in *.
    eapply dsame_trans; [apply Z; auto|].
    + constructor; rewrite ?F1, ?F2, ?F3, ?F4; auto.
    + now apply dsame_dbin_neg_r.
  - destruct (tneg_ok s Ws) as (s' & Eo & Ws' & So). rewrite Eo. cbn [rbind]. eexists; split; [reflexivity|]. cbn [vden].
    pose proof So as (F1 & F2 & F3 & F4 & _). cbn [dneg dmap xs ys ns ds] in *.
    assert (C' : dcompat (den s') (den o)) by (constructor; rewrite ?F1, ?F2, ?F3, ?F4; auto).
    eapply dsame_trans; [apply Z; auto|].
    eapply dsame_trans; [apply dsame_dbin; [exact C'|now apply wf_dpos|exact Po|exact So|apply dsame_refl|reflexivity]|].
    unfold dsame. cbn [dbin xs ys ns ds at_]. repeat split; auto. intros. unfold dneg. rewrite get_dmap. lra.
Qed.

(** *** products *)
Lemma cross_diag_same arr p m : arr_expand_cross_diag arr p m m = Ok arr.
Proof. unfold arr_expand_cross_diag. induction m as [|o m IH]; cbn [combine ofold]; auto. rewrite oeqb_refl. cbn [rbind]. exact IH. Qed.
Lemma cross_diag_nil arr p m : arr_expand_cross_diag arr p m [] = Ok arr.
Proof. unfold arr_expand_cross_diag. destruct m; reflexivity. Qed.
Lemma soa_mapsel ms mo G G' : same_or_absent ms mo G G' ->
  exists hs ho, mapsel ms mo G G' (if nonempty ms then ms else mo) hs ho /\ (hs = true \/ ho = true) /\ (mo = [] -> hs = true) /\ (ms = [] -> ho = true).
Proof.
  intros H. assert (K : ms = mo -> exists hs ho, mapsel ms mo G G' (if nonempty ms then ms else mo) hs ho /\ (hs = true \/ ho = true) /\ (mo = [] -> hs = true) /\ (ms = [] -> ho = true)).
  { intros ->. exists true, true. split; [|auto]. destruct mo; constructor; auto. }
  destruct H as [H|[[H HG]|[H HG]]]; [auto| |].
  - destruct ms as [|m0 ms']; [auto|]. exists true, false. cbn [nonempty]. split; [now apply MLeft|]. repeat split; auto. discriminate.
  - destruct mo as [|m0 mo']; [auto|]. subst. exists false, true. cbn [nonempty]. split; [now apply MRight|]. repeat split; auto. discriminate.
Qed.
Theorem tmul_ok s o op : wf s -> wf o -> to_features s -> to_features o -> compat s o -> shp (tv s) <> [] ->
  same_or_absent (xm s) (xm o) (sX s) (sX o) -> same_or_absent (ym s) (ym o) (sY s) (sY o) -> divisible s o op ->
  exists r, tbin_tensor s o op = Ok (PT r) /\ wf r /\ to_features r /\ dsame (den r) (dbin (op_fun op) (den s) (den o)).
Proof.
  intros Ws Wo Fs Fo C R Mx My Dv.
  destruct (soa_mapsel _ _ _ _ Mx) as (hxs & hxo & Sx & Hx & Hx1 & Hx2). destruct (soa_mapsel _ _ _ _ My) as (hys & hyo & Sy & Hy & Hy1 & Hy2).
  destruct (bin_den (op_fun op) s o _ _ hxs hxo hys hyo (mkOD _ _ _ _ _ _ _ _ Ws Wo Fs Fo C Sx Sy)) as (l & r & v & t & El & Er & Ev & Et & Wt & Ft & Mxt & Myt & De).
  { clear -Hx Hy Hx1 Hx2 Hy1 Hy2 Dv. intros a b dx dy Zx Zy. destruct Dv as [->|[(-> & E1 & E2)|(-> & E1 & E2)]]; cbn [op_fun].
    - destruct Zx as [->| ->], Zy as [->| ->], hxs, hxo, hys, hyo; cbn [dis]; destruct Hx, Hy; try discriminate; ring.
    - rewrite (Hx1 E1), (Hy1 E2). cbn [dis]. unfold Rdiv.
      destruct Zx as [->| ->], Zy as [->| ->]; rewrite ?Rmult_0_r, ?Rmult_0_l, ?Rmult_0_r, ?Rmult_0_l; try reflexivity.
      destruct hxo, hyo; cbn [dis]; rewrite !Rmult_1_r; reflexivity.
    - rewrite (Hx2 E1), (Hy2 E2). cbn [dis]. unfold Rdiv.
      destruct Zx as [->| ->], Zy as [->| ->]; rewrite ?Rmult_0_r, ?Rmult_0_l, ?Rmult_0_r, ?Rmult_0_l; try reflexivity.
      destruct hxs, hys; cbn [dis]; rewrite !Rmult_1_r; reflexivity. }
  destruct (compat_asserts s o Ws Wo C) as (A1 & A2 & A3 & A4).
  destruct (wf_groups s Ws) as [_ L1 L2 _ _]. destruct (wf_groups o Wo) as [_ L1' L2' _ _].
  exists t. split; [|auto]. unfold tbin_tensor. destruct (shp (tv s)) as [|h0 l0]; [congruence|].
  rewrite A1, A2, A3, A4. cbn [py_assert rbind]. replace (additive op) with false by (destruct Dv as [->|[[-> _]|[-> _]]]; reflexivity).
  assert (XR : (if nonempty (xm s) then
            let! l := arr_expand_cross_diag (tv s) (xd s + yd s) (xm s) (xm o) in
            let! r := if negb (nonempty (xm o)) && Nat.ltb 0 (xd o) then arr_take_diag (tv o) 0 (xd o + yd o) (xm s) else Ok (tv o) in
            Ok (xm s, l, r)
          else
            let! l := if nonempty (xm o) && Nat.ltb 0 (xd s) then arr_take_diag (tv s) 0 (xd s + yd s) (xm o) else Ok (tv s) in
            Ok (xm o, l, tv o)) = Ok (if nonempty (xm s) then xm s else xm o, tv s, tv o)).
  { destruct Mx as [E|[[E HG]|[E HG]]].
    - rewrite <- E. destruct (nonempty (xm s)) eqn:Ne.
      + rewrite cross_diag_same. cbn [rbind negb andb]. reflexivity.
      + reflexivity.
    - rewrite E. rewrite HG in L1'. cbn [length] in L1'. rewrite <- L1'. rewrite cross_diag_nil. cbn [nonempty negb andb Nat.ltb Nat.leb rbind].
      destruct (nonempty (xm s)); reflexivity.
    - rewrite E. rewrite HG in L1. cbn [length] in L1. rewrite <- L1. cbn [nonempty Nat.ltb Nat.leb]. rewrite andb_false_r. reflexivity. }
  rewrite XR. cbn [rbind].
  assert (YR : (if nonempty (ym s) then
            let! l := arr_expand_cross_diag (tv s) (xd s + yd s) (ym s) (ym o) in
            let! r := if negb (nonempty (ym o)) && Nat.ltb 0 (yd o) then arr_take_diag (tv o) (xd o) (xd o + yd o) (ym s) else Ok (tv o) in
            Ok (ym s, l, r)
          else
            let! l := if Nat.ltb 0 (yd s) then arr_take_diag (tv s) (xd s) (xd s + yd s) (ym o) else Ok (tv s) in
            Ok (ym o, l, tv o)) = Ok (if nonempty (ym s) then ym s else ym o, tv s, tv o)).
  { destruct My as [E|[[E HG]|[E HG]]].
    - rewrite <- E. destruct (nonempty (ym s)) eqn:Ne.
      + rewrite cross_diag_same. cbn [rbind negb andb]. reflexivity.
      + destruct (ym s); [|discriminate]. destruct (Nat.ltb 0 (yd s)); reflexivity.
    - rewrite E. rewrite HG in L2'. cbn [length] in L2'. rewrite <- L2'. rewrite cross_diag_nil. cbn [nonempty negb andb Nat.ltb Nat.leb rbind].
      destruct (nonempty (ym s)); [reflexivity|]. destruct (yd s); reflexivity.
    - rewrite E. rewrite HG in L2. cbn [length] in L2. rewrite <- L2. cbn [nonempty Nat.ltb Nat.leb]. reflexivity. }
  rewrite YR. cbn [rbind]. rewrite El. cbn [rbind]. rewrite Er. cbn [rbind]. rewrite Ev. cbn [rbind]. rewrite Et. reflexivity.
Qed.

(** *** a 0-d left operand *)
Lemma np_bin_scalar op a b : shp a = [] -> posl (shp b) ->
  exists r, np_bin op a b = Ok r /\ shp r = shp b /\ forall i, In i (indices (shp b)) -> el r i = op (el a []) (el b i).
Proof.
  intros Sa P. unfold np_bin, ndim. rewrite Sa. cbn [length Nat.max]. unfold pad. cbn [length]. rewrite Nat.sub_diag, Nat.sub_0_r, app_nil_r. cbn [repeat app].
  rewrite (bshape_bmax _ _ (bcompat_ones (shp b))) by (auto; apply pos_ones). rewrite bmax_ones by auto.
  eexists; split; [reflexivity|]. cbn [shp el]. split; [reflexivity|]. intros i Hi. rewrite (align_same (shp b)) by (now apply indices_length).
  rewrite clamp_in by auto. reflexivity.
Qed.
Lemma rank0_groups s : wf s -> shp (tv s) = [] -> xd s = O /\ yd s = O /\ nn s = O /\ dm s = O /\ xm s = [] /\ ym s = [].
Proof.
  intros W E. pose proof (wf_len s W) as L. rewrite E in L. cbn in L. assert (xd s = O /\ yd s = O /\ nn s = O /\ dm s = O) as (A & B & Cc & Dd) by lia.
  repeat split; auto.
  - destruct (wf_x s W) as (S & _). unfold sX in S. rewrite A in S. cbn in S. destruct (xm s) as [|[f|] m]; auto; destruct S.
  - destruct (wf_y s W) as (S & _). unfold sY in S. rewrite B in S. cbn in S. destruct (ym s) as [|[f|] m]; auto; destruct S.
Qed.
Theorem tbin_rank0 s o op : wf s -> wf o -> shp (tv s) = [] -> (op = MUL \/ op = RDIV \/ (xm o = [] /\ ym o = [])) ->
  exists r, tbin_tensor s o op = Ok (PT r) /\ wf r /\ (to_features o -> to_features r) /\ dsame (den r) (dbin (op_fun op) (den s) (den o)).
Proof.
  intros Ws Wo E Hop. destruct (rank0_groups s Ws E) as (Z1 & Z2 & Z3 & Z4 & M1 & M2).
  destruct (np_bin_scalar (op_fun op) (tv s) (tv o) E (wf_pos o Wo)) as (v & Ev & Sv & Vv).
  pose proof (wf_groups o Wo) as G. destruct (wf_pos4 o Wo) as (PX & PY & PN & PD).
  destruct G as [GS Lx Ly Ln Ld].
  destruct (Tensor_ok v (sX o) (sY o) (sN o) (sD o) (xm o) (ym o) (xd o) (yd o) (dm o)) as (r & Er & Gr & Tr & Mx & My); auto; [congruence|].
  exists r. split; [unfold tbin_tensor; rewrite E, Ev; cbn [rbind]; rewrite Er; reflexivity|].
  assert (Nr : nn r = nn o) by (rewrite <- (g_n _ _ _ _ _ Gr); auto).
  split. { apply (wf_of r _ _ _ _ Gr); auto; rewrite ?Mx, ?My, Ln, Ld; apply Wo. }
  split. { intros [F1 F2]. split; rewrite ?Mx, ?My, Nr; auto. }
  destruct (den_groups _ _ _ _ _ Gr) as (Rx & Ry & Rn & Rd). rewrite Mx in Rx; rewrite My in Ry.
  destruct (den_groups _ _ _ _ _ (wf_groups o Wo)) as (Dx & Dy & Dn & Dd).
  assert (Es : den s = DT [] [] [] [] (fun x y n d => el (tv s) (stored [] x ++ stored [] y ++ n ++ d) * deltas [] x (n ++ d) * deltas [] y (n ++ d))).
  { unfold den, sX, sY, sN, sD. rewrite Z1, Z2, Z3, E, M1, M2. reflexivity. }
  unfold dsame. rewrite Rx, Ry, Rn, Rd. rewrite Es. cbn [dbin xs ys ns ds at_ bmax]. rewrite Dx, Dy, Dn, Dd.
  split; [auto|]. split; [auto|]. split; [auto|]. split; [reflexivity|].
  intros x y n d Hx Hy Hn Hd. unfold get. cbn [xs ys ns ds at_ clamp stored deltas app]. rewrite Dx, Dy, Dn, Dd, !clamp_in by auto. rewrite !Rmult_1_r.
  unfold den. cbn [at_]. rewrite Mx, My, Tr. rewrite Vv.
  2:{ rewrite GS. apply in_indices_app2; [|apply in_indices_app2; [|apply in_indices_app2; auto]].
      - eapply stored_in; eauto. apply Wo. - eapply stored_in; eauto. apply Wo. }
  destruct (deltas_01 (xm o) x (n ++ d)) as [Q1|Q1], (deltas_01 (ym o) y (n ++ d)) as [Q2|Q2];
  destruct Hop as [->|[->|[H1 H2]]]; cbn [op_fun]; try (rewrite Q1, Q2; unfold Rdiv; ring);
  rewrite H1, H2 in *; cbn [deltas] in *; rewrite ?Rmult_1_r; auto; lra.
Qed.
