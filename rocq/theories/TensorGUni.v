(** Formal sums built with +, - and unary minus from tensors that all have the
    same feature and dim axes can be summed. *)
From Verif Require Import Prelude DenseModel AnalyticSpec DenseProofs NDArray NDProofs TensorModel TensorSpec TensorSpecOps TensorLemmas TensorBasic TensorSum TensorSumMain TensorBin TensorArith TensorShape TensorGeneric TensorGSum.
From Verif Require FuncCollapse.
From Coq Require Import Reals Lra.
Import List ListNotations.
Open Scope R_scope.

Definition nd (n d : nat) (t : tensor) : Prop := nn t = n /\ dm t = d.
Definition ndi (n d : nat) (e : item) : Prop := forall t, e = IT t -> nd n d t.
Definition vnd (n d : nat) (v : pval) : Prop :=
  match v with
  | PT t => nd n d t
  | PG g => gn g = n /\ gd g = d /\ Forall (ndi n d) (els g) /\ els g <> [] /\ gx g = length (xs (gden g)) /\ gy g = length (ys (gden g))
  | _ => False
  end.
Lemma fits_lens S t : fits S t -> length (xs (den t)) = xd t /\ length (ys (den t)) = yd t /\ length (ns (den t)) = nn t /\ length (ds (den t)) = dm t.
Proof.
  intros F. pose proof (wf_groups t (ft_wf _ _ F)) as G. destruct (den_groups _ _ _ _ _ G) as (E1 & E2 & E3 & E4). rewrite E1, E2, E3, E4, !msizes_length. repeat split; apply G.
Qed.
Lemma nd_result S n d s o r op : fits S s -> fits S o -> fits S r -> nd n d s -> nd n d o -> dsame (den r) (dbin op (den s) (den o)) -> nd n d r.
Proof.
  intros Fs Fo Fr [N1 D1] [N2 D2] (_ & _ & En & Ed & _). destruct (fits_lens S s Fs) as (_ & _ & L1 & L2), (fits_lens S o Fo) as (_ & _ & L3 & L4), (fits_lens S r Fr) as (_ & _ & L5 & L6).
  split; [rewrite <- L5, En|rewrite <- L6, Ed]; cbn [dbin ns ds]; rewrite bmax_len; lia.
Qed.
Lemma nd_neg S n d t r : fits S t -> nd n d t -> tneg t = Ok r -> nd n d r.
Proof.
  intros F [N D] E. destruct (retensor t (np_map Ropp (tv t)) (ft_wf _ _ F) eq_refl) as (r' & Er & Wr & E1 & E2 & E3 & E4 & _).
  unfold tneg in E. rewrite Er in E. injection E as ->. split; congruence.
Qed.
Lemma absorb_nd S n d o op app : spos S -> fits S o -> nd n d o -> op = ADD \/ op = SUB -> (forall a, app = Ok a -> ndi n d a) ->
  forall es es', allfit S es -> Forall (ndi n d) es -> absorb es (IT o) op app = Ok es' -> Forall (ndi n d) es' /\ es' <> [].
Proof.
  intros PS Fo No Hop Ha. assert (A : additive op = true) by (destruct Hop as [-> | ->]; reflexivity).
  induction es as [|e es IH]; intros es' F N E; cbn [absorb] in E.
  - destruct app as [a|]; cbn [rbind] in E; [|discriminate]. injection E as <-. split; [|discriminate]. constructor; [now apply Ha|constructor].
  - inversion F as [|? ? [s [-> Fs]] F']; subst. inversion N as [|? ? Ns N']; subst. cbn [item_bin tbin1] in E.
    destruct (pair_op S s o op PS Fs Fo A) as [(r & Er & Fr & De)|(g & Eg)].
    + rewrite Er in E. cbn [rbind] in E. injection E as <-. split; [|discriminate]. constructor; auto. intros t Ht. injection Ht as <-. apply (nd_result S n d s o r (op_fun op)); auto.
    + rewrite Eg in E. cbn [rbind] in E. destruct (absorb es (IT o) op app) as [r|] eqn:Er; cbn [rbind] in E; [|discriminate]. injection E as <-.
      split; [|discriminate]. constructor; auto. now apply (IH r).
Qed.
Lemma neg_nd S n d es es' : allfit S es -> Forall (ndi n d) es -> rmapM item_neg es = Ok es' -> Forall (ndi n d) es' /\ length es' = length es.
Proof.
  intros F N. revert es'; induction es as [|e es IH]; intros es' E; cbn [rmapM] in E; [injection E as <-; auto|].
  inversion F as [|? ? [s [-> Fs]] F']; subst. inversion N as [|? ? Ns N']; subst. cbn [item_neg] in E.
  destruct (tneg s) as [s'|] eqn:Es; cbn [rbind] in E; [|discriminate]. destruct (rmapM item_neg es) as [r|]; cbn [rbind] in E; [|discriminate]. injection E as <-.
  destruct (IH F' N' r eq_refl) as [I1 I2]. cbn [length]. split; [|lia]. constructor; auto. intros t Ht. injection Ht as <-. eapply nd_neg; eauto.
Qed.
Lemma gbin1_nd S n d g o op g' : spos S -> gfits S g -> fits S o -> vnd n d (PG g) \/ (els g = [] /\ gx g = 0%nat /\ gy g = 0%nat /\ gn g = n /\ gd g = d) -> nd n d o -> op = ADD \/ op = SUB \/ op = RSUB ->
  gbin1 g (IT o) op = Ok g' -> vnd n d (PG g').
Proof.
  intros PS Fg Fo Vg No Hop E.
  assert (LL : exists f, dsame (gden g') (dbin f (gden g) (den o)) \/ dsame (gden g') (dbin f (den o) (gden g))).
  { destruct Hop as [->|[->| ->]].
    - destruct (gbin_tensor S g o ADD PS Fg Fo (or_introl eq_refl)) as (h & Eh & _ & D). rewrite E in Eh. injection Eh as <-. eauto.
    - destruct (gbin_tensor S g o SUB PS Fg Fo (or_intror eq_refl)) as (h & Eh & _ & D). rewrite E in Eh. injection Eh as <-. eauto.
    - destruct (grsub S g o PS Fg Fo) as (h & Eh & _ & D). rewrite E in Eh. injection Eh as <-. eauto. }
  assert (Gg : gx g = length (xs (gden g)) /\ gy g = length (ys (gden g)) /\ gn g = n /\ gd g = d /\ Forall (ndi n d) (els g)).
  { destruct Vg as [(V1 & V2 & V3 & V4 & V5 & V6)|(V0 & V1 & V2 & V3 & V4)]; auto. unfold gden. rewrite V0. cbn. repeat split; auto. }
  destruct Gg as (G1 & G2 & G3 & G4 & G5). destruct (fits_lens S o Fo) as (L1 & L2 & L3 & L4). destruct No as [No1 No2].
  assert (LX : length (xs (gden g')) = Nat.max (gx g) (xd o) /\ length (ys (gden g')) = Nat.max (gy g) (yd o)).
  { destruct LL as [f [D|D]]; destruct D as (D1 & D2 & _); rewrite D1, D2; cbn [dbin xs ys]; rewrite !bmax_len; lia. }
  destruct LX as [LX LY].
  assert (ES : Forall (ndi n d) (els g') /\ els g' <> [] /\ gx g' = Nat.max (gx g) (xd o) /\ gy g' = Nat.max (gy g) (yd o) /\ gn g' = Nat.max (gn g) (nn o) /\ gd g' = Nat.max (gd g) (dm o)).
  { unfold gbin1 in E. match type of E with rbind ?e _ = _ => destruct e as [es|] eqn:Ee; cbn [rbind] in E; [|discriminate] end. injection E as <-. cbn [els gx gy gn gd].
    cut (Forall (ndi n d) es /\ es <> []); [tauto|].
    destruct Hop as [->|[->| ->]].
    - eapply (absorb_nd S n d o ADD (Ok (IT o))); eauto; [now split|]. intros a Ha. injection Ha as <-. intros t Ht. injection Ht as <-. now split.
    - eapply (absorb_nd S n d o SUB (item_neg (IT o))); eauto; [now split|]. cbn [item_neg]. intros a Ha. destruct (tneg o) as [o'|] eqn:Eo; cbn [rbind] in Ha; [|discriminate]. injection Ha as <-.
      intros t Ht. injection Ht as <-. eapply nd_neg; eauto. now split.
    - destruct (rmapM item_neg (els g)) as [q|] eqn:Eq; cbn [rbind] in Ee; [|discriminate].
      destruct (neg_nd S n d _ _ Fg G5 Eq) as [Nq _]. destruct (gneg_items S (els g) PS Fg) as (q' & Eq' & Aq & _). rewrite Eq in Eq'. injection Eq' as <-.
      eapply (absorb_nd S n d o ADD (Ok (IT o))); eauto; [now split|]. intros a Ha. injection Ha as <-. intros t Ht. injection Ht as <-. now split. }
  destruct ES as (E1 & E2 & E3 & E4 & E5 & E6). cbn [vnd]. rewrite E3, E4, E5, E6, LX, LY. repeat split; auto; lia.
Qed.
Lemma fold_nd S n d op : spos S -> op = ADD \/ op = SUB -> forall h, allfit S h -> Forall (ndi n d) h -> forall g g', gfits S g -> vnd n d (PG g) ->
  ofold (fun acc e => gbin1 acc e op) h g = Ok g' -> vnd n d (PG g').
Proof.
  intros PS Hop. induction h as [|e h IH]; intros Fh Nh g g' Fg Vg E; cbn [ofold] in E; [injection E as <-; exact Vg|].
  inversion Fh as [|? ? [o [-> Fo]] Fh']; subst. inversion Nh as [|? ? No Nh']; subst.
  destruct (gbin_tensor S g o op PS Fg Fo Hop) as (g1 & E1 & F1 & _). rewrite E1 in E. cbn [rbind] in E.
  apply (IH Fh' Nh' g1 g' F1); auto. eapply (gbin1_nd S n d g o op g1); eauto. destruct Hop; auto.
Qed.
Lemma pbin_nd S n d a b op v : spos S -> vfits S a -> vfits S b -> vnd n d a -> vnd n d b -> op = ADD \/ op = SUB -> pbin a b op = Ok v -> vnd n d v.
Proof.
  intros PS Fa Fb Na Nb Hop E. assert (A : additive op = true) by (destruct Hop as [-> | ->]; reflexivity).
  destruct a as [|?|s|g], b as [|?|o|h]; cbn [vfits] in Fa, Fb; try contradiction; unfold pbin, tbin, gbin in E.
  - destruct (tadd_any S s o op PS Fa Fb Hop) as (w & Ew & Fw & Dw). cbn [tbin] in Ew. rewrite E in Ew. injection Ew as <-.
    pose proof E as E'. unfold tbin_t in E'. pose proof (ft_rank _ _ Fb) as Ro. destruct (shp (tv o)); [congruence|].
    unfold tbin_tensor in E'. pose proof (ft_rank _ _ Fa) as Rs. destruct (shp (tv s)); [congruence|].
    repeat match type of E' with rbind (py_assert ?b) _ = _ => destruct b; cbn [py_assert rbind] in E'; [|discriminate] end. rewrite A in E'.
    destruct (map_eqb (xm s) (xm o) && map_eqb (ym s) (ym o)) eqn:M.
    + assert (IsT : exists r, v = PT r). { repeat match type of E' with rbind ?e _ = _ => destruct e; cbn [rbind] in E'; [|discriminate] end. injection E' as <-. eauto. }
      destruct IsT as [r ->]. cbn [vnd vfits vden] in *. apply (nd_result S n d s o r (op_fun op)); auto.
    + destruct (fits_lens S s Fa) as (L1 & L2 & L3 & L4), (fits_lens S o Fb) as (L1' & L2' & L3' & L4'). destruct Na as [N1 N2], Nb as [N3 N4].
      assert (IsG : exists r, v = PG (mkG (Nat.max (xd s) (xd o)) (Nat.max (yd s) (yd o)) (Nat.max (nn s) (nn o)) (Nat.max (dm s) (dm o)) [IT s; IT r]) /\ nd n d r).
      { destruct Hop as [-> | ->].
        - injection E' as <-. exists o. split; [reflexivity|now split].
        - destruct (tneg o) as [o'|] eqn:Eo; cbn [rbind] in E'; [|discriminate]. injection E' as <-. exists o'. split; [reflexivity|]. eapply nd_neg; eauto. now split. }
      destruct IsG as (r & -> & Nr). destruct Dw as (D1 & D2 & _). cbn [vnd gn gd els gx gy]. cbn [vden] in D1, D2. rewrite D1, D2. cbn [dbin xs ys]. rewrite !bmax_len.
      repeat split; try lia; try discriminate. constructor; [|constructor; [|constructor]]; intros t Ht; injection Ht as <-; auto. now split.
  - destruct Hop as [-> | ->]; (destruct (gbin1 h (IT s) _) as [w|] eqn:Ew; cbn [rmap] in E; [|discriminate]); injection E as <-.
    + eapply (gbin1_nd S n d h s ADD); eauto.
    + eapply (gbin1_nd S n d h s RSUB); eauto.
  - destruct (gbin1 g (IT o) op) as [w|] eqn:Ew; cbn [rmap] in E; [|discriminate]. injection E as <-. eapply (gbin1_nd S n d g o op); eauto. destruct Hop; auto.
  - destruct (gbin_g g h op) as [w|] eqn:Ew; cbn [rmap] in E; [|discriminate]. injection E as <-.
    assert (Ew' : ofold (fun acc e => gbin1 acc e op) (els h) g = Ok w) by (unfold gbin_g in Ew; destruct Hop as [-> | ->]; exact Ew).
    apply (fold_nd S n d op PS Hop (els h) Fb (proj1 (proj2 (proj2 Nb))) g w Fa Na Ew').
Qed.
Lemma pneg_nd S n d a v : spos S -> vfits S a -> vnd n d a -> pneg a = Ok v -> vnd n d v.
Proof.
  intros PS F N E. destruct (pneg_ok S a PS F) as (w & Ew & _ & D). rewrite E in Ew. injection Ew as <-. destruct a as [|?|s|g]; cbn [vfits] in F; try contradiction; unfold pneg in E.
  - destruct (tneg s) as [r|] eqn:Er; cbn [rmap] in E; [|discriminate]. injection E as <-. cbn [vnd] in *. eapply nd_neg; eauto.
  - unfold gneg in E. destruct (rmapM item_neg (els g)) as [es|] eqn:Ee; cbn [rbind rmap] in E; [|discriminate]. injection E as <-.
    destruct N as (N1 & N2 & N3 & N4 & N5 & N6). destruct (neg_nd S n d _ _ F N3 Ee) as [Nq Lq]. destruct D as (D1 & D2 & _). cbn [vden dneg dmap xs ys] in D1, D2.
    cbn [vnd gn gd els gx gy]. rewrite D1, D2. repeat split; auto. intros ->. destruct (els g); [congruence|discriminate].
Qed.

Lemma dsame_dsum a b sv sd : dpos a -> dsame a b -> dsame (dsum_axes a sv sd) (dsum_axes b sv sd).
Proof.
  intros P D. pose proof D as (E1 & E2 & E3 & E4 & V). apply dsame_intro.
  - unfold shape_of; cbn [dsum_axes xs ys ns ds]. now rewrite E1, E2, E3, E4.
  - unfold shape_of, at_shape. cbn [dsum_axes xs ys ns ds SX SY SN SD]. intros x y n d (Hx & Hy & Hn & Hd). rewrite !FuncCollapse.get_dsum_axes, <- E3, <- E4.
    apply Rsum_ext; intros n' Hn'. apply Rsum_ext; intros d' Hd'. apply (dsame_at (shape_of a)); auto.
    { constructor; apply below_refl. } unfold at_shape, shape_of; cbn [SX SY SN SD]. split; [exact Hx|]. split; [exact Hy|].
    split; [destruct sv|destruct sd]; auto; [destruct Hn' as [<-|[]]|destruct Hd' as [<-|[]]]; auto.
Qed.
Theorem expr_sum_ok S n d e (sd : bool) : spos S -> Forall (fits S) (leaves e) -> Forall (fun t => nn t = n /\ dm t = d) (leaves e) ->
  exists v t, pyeval e = Ok v /\ psum v sd = Ok (PT t) /\ wf t /\ dsame (den t) (dsum_axes (meaning e) true sd).
Proof.
  intros PS F N. destruct (expr_ok S e PS F) as (v & Ev & Fv & Dv).
  assert (Nv : vnd n d v).
  { clear Fv Dv. revert v Ev F N. induction e as [t|a IHa b IHb|a IHa b IHb|a IHa]; cbn [pyeval leaves]; intros v Ev F N.
    - injection Ev as <-. now inversion N.
    - apply Forall_app in F as [Fa Fb]. apply Forall_app in N as [Na Nb]. destruct (expr_ok S a PS Fa) as (va & Ea & FA & _). destruct (expr_ok S b PS Fb) as (vb & Eb & FB & _).
      rewrite Ea in Ev. rewrite Eb in Ev. cbn [rbind] in Ev. apply (pbin_nd S n d va vb ADD v); auto.
    - apply Forall_app in F as [Fa Fb]. apply Forall_app in N as [Na Nb]. destruct (expr_ok S a PS Fa) as (va & Ea & FA & _). destruct (expr_ok S b PS Fb) as (vb & Eb & FB & _).
      rewrite Ea in Ev. rewrite Eb in Ev. cbn [rbind] in Ev. apply (pbin_nd S n d va vb SUB v); auto.
    - destruct (expr_ok S a PS F) as (va & Ea & FA & _). rewrite Ea in Ev. cbn [rbind] in Ev. apply (pneg_nd S n d va v); auto. }
  destruct (vden_below S v PS Fv) as [_ Pv]. exists v. destruct v as [|?|s|g]; cbn [vfits] in Fv; try contradiction; cbn [psum vden vnd] in *.
  - destruct (tsum_ok s sd (ft_wf _ _ Fv) (ft_feat _ _ Fv)) as (r & Er & Wr & _ & _ & Dr). exists r. split; [exact Ev|]. rewrite Er. split; [reflexivity|]. split; [exact Wr|].
    eapply dsame_trans; [exact Dr|]. now apply dsame_dsum.
  - destruct Nv as (N1 & N2 & N3 & N4 & N5 & N6). destruct (gsum_ok S g sd PS Fv) as (r & Er & Wr & _ & _ & Dr); auto.
    { constructor; auto. intros t Ht. rewrite N1, N2. exact (proj1 (Forall_forall _ _) N3 _ Ht t eq_refl). }
    exists r. split; [exact Ev|]. split; [exact Er|]. split; [exact Wr|]. eapply dsame_trans; [exact Dr|]. now apply dsame_dsum.
Qed.
