(** Plain values (no parameter axes) along the axes of the data: arithmetic of the
    likelihood classes before the derivatives come in. *)
From Verif Require Import Prelude DenseModel AnalyticSpec DenseProofs NDArray NDProofs TensorModel TensorSpec TensorSpecOps TensorLemmas TensorBasic TensorSum TensorSumMain TensorBin TensorArith TensorShape TensorExpand TensorGeneric TensorGSum TensorDotCore TensorDot TensorUfunc TensorUfuncP FuncModel FuncSpec FTModel FTRep FTRep2 FTRep3 FTVal.
From Coq Require Import Reals Lra.
Import List ListNotations.
Open Scope R_scope.

(** level 2: stored in full along the data; level 1: some axes may have size 1;
    level 0: may be a bare number *)
Definition lv (k : nat) (dat : pst) (a : dt) : Prop :=
  match k with
  | O => (ns a = [] /\ ds a = []) \/ (le1 (ns a) (fst dat) /\ le1 (ds a) (snd dat))
  | S O => le1 (ns a) (fst dat) /\ le1 (ds a) (snd dat)
  | _ => ns a = fst dat /\ ds a = snd dat
  end.
Definition plt (t : tensor) : Prop := wf t /\ xs (den t) = [] /\ ys (den t) = [].
Definition pl (k : nat) (dat : pst) (v : pval) (F : idx -> idx -> R) : Prop :=
  exists t, v = PT t /\ plt t /\ lv k dat (den t) /\
    forall n d, In n (indices (fst dat)) -> In d (indices (snd dat)) -> get (den t) [] [] n d = F n d.

Section dat.
Variable dat : pst.
Hypothesis Hp : posl (flat dat).
Hypothesis Hne : flat dat <> [].
Let N := fst dat.
Let D := snd dat.
Lemma pN : posl N. Proof. unfold posl, flat in Hp. apply Forall_app in Hp. apply Hp. Qed.
Lemma pD : posl D. Proof. unfold posl, flat in Hp. apply Forall_app in Hp. apply Hp. Qed.
Lemma lv_down k a : lv (S k) dat a -> lv k dat a.
Proof.
  destruct k as [|[|k]]; cbn [lv]; auto. intros [-> ->]. split; apply le1_same.
Qed.
Lemma lv_le j k a : (j <= k)%nat -> lv k dat a -> lv j dat a.
Proof. intros L. induction L as [|k L IH]; auto. intros H. apply IH, lv_down, H. Qed.
Lemma lv0 k a : lv k dat a -> lv 0 dat a.
Proof. apply lv_le. lia. Qed.
Lemma lv_rank k a : lv k dat a -> ns a ++ ds a = [] -> k = O.
Proof.
  intros H E. apply app_eq_nil in E. destruct E as [E1 E2]. destruct k; auto. exfalso. apply Hne. unfold flat.
  assert (L : lv 1 dat a) by (apply (lv_le 1 (S k)); [lia|auto]). destruct L as [L1 L2]. rewrite E1 in L1. rewrite E2 in L2. apply le1_nil in L1, L2. now rewrite L1, L2.
Qed.
Lemma lv_dbelow k a : xs a = [] -> ys a = [] -> lv k dat a -> dbelow (SH [] [] N D) a.
Proof.
  intros X Y H. apply lv0 in H. destruct H as [[E1 E2]|[E1 E2]]; constructor; rewrite ?X, ?Y, ?E1, ?E2; try (now left); right; assumption.
Qed.
Lemma bmax_full a b : posl b -> (a = [] \/ le1 a b) -> bmax a b = b /\ bmax b a = b.
Proof. intros P [-> | L]; [split; [reflexivity|destruct b; reflexivity]|]. split; [rewrite bmax_sym|]; now apply le1_bmax_full. Qed.
Lemma lv_bin k1 k2 op a b : lv k1 dat a -> lv k2 dat b -> lv (Nat.max k1 k2) dat (dbin op a b).
Proof.
  assert (Main : forall k1 k2 a b a' b' : dt, True) by auto. clear Main.
  assert (Q1 : forall k a, lv k dat a -> (ns a = [] /\ ds a = []) \/ (le1 (ns a) N /\ le1 (ds a) D)) by (intros k c H; exact (lv0 k c H)).
  intros H1 H2. pose proof (Q1 _ _ H1) as A. pose proof (Q1 _ _ H2) as B. pose proof pN as PN. pose proof pD as PD.
  assert (Ex : forall k c, lv (S (S k)) dat c -> ns c = N /\ ds c = D) by (intros k c H; exact H).
  assert (L1 : forall k c, lv (S k) dat c -> le1 (ns c) N /\ le1 (ds c) D) by (intros k c H; exact (lv_le 1 (S k) c ltac:(lia) H)).
  assert (R : forall c, (ns c = [] /\ ds c = []) \/ (le1 (ns c) N /\ le1 (ds c) D) -> (ns c = [] \/ le1 (ns c) N) /\ (ds c = [] \/ le1 (ds c) D)) by (intros c [[E1 E2]|[E1 E2]]; auto).
  destruct (R a A) as [An Ad]. destruct (R b B) as [Bn Bd].
  destruct (bmax_full _ _ PN An) as [AN1 AN2]. destruct (bmax_full _ _ PD Ad) as [AD1 AD2]. destruct (bmax_full _ _ PN Bn) as [BN1 BN2]. destruct (bmax_full _ _ PD Bd) as [BD1 BD2].
  destruct k2 as [|[|k2]].
  - rewrite Nat.max_0_r. destruct k1 as [|[|k1]].
    + cbn [lv dbin ns ds]. destruct A as [[E1 E2]|[E1 E2]]; [rewrite E1, E2; cbn [bmax]; exact B|]. destruct B as [[E3 E4]|[E3 E4]]; [rewrite E3, E4, !bmax_nil_r; auto|]. right. split; now apply le1_bmax.
    + destruct (L1 _ _ H1) as [E1 E2]. cbn [lv dbin ns ds]. destruct B as [[E3 E4]|[E3 E4]]; [rewrite E3, E4, !bmax_nil_r; auto|]. split; now apply le1_bmax.
    + destruct (Ex _ _ H1) as [E1 E2]. cbn [lv dbin ns ds]. rewrite E1, E2. auto.
  - destruct (L1 _ _ H2) as [E3 E4]. destruct k1 as [|[|k1]].
    + cbn [Nat.max lv dbin ns ds]. destruct A as [[E1 E2]|[E1 E2]]; [rewrite E1, E2; cbn [bmax]; auto|]. split; now apply le1_bmax.
    + destruct (L1 _ _ H1) as [E1 E2]. cbn [Nat.max lv dbin ns ds]. split; now apply le1_bmax.
    + destruct (Ex _ _ H1) as [E1 E2]. rewrite Nat.max_l by lia. cbn [lv dbin ns ds]. rewrite E1, E2. auto.
  - destruct (Ex _ _ H2) as [E3 E4]. assert (G : ns (dbin op a b) = N /\ ds (dbin op a b) = D) by (cbn [dbin ns ds]; rewrite E3, E4; auto).
    destruct k1 as [|[|k1]]; cbn [Nat.max]; exact G.
Qed.
Lemma lv_map k f a : lv k dat a -> lv k dat (dmap f a).
Proof. auto. Qed.
Lemma pl_intro k t a F : wf t -> dsame (den t) a -> xs a = [] -> ys a = [] -> lv k dat a ->
  (forall n d, In n (indices N) -> In d (indices D) -> get a [] [] n d = F n d) -> pl k dat (PT t) F.
Proof.
  intros W S X Y L V. pose proof S as (E1 & E2 & E3 & E4 & _). exists t. split; [reflexivity|]. split; [unfold plt; rewrite E1, E2; auto|].
  assert (L' : lv k dat (den t)) by (destruct k as [|[|k]]; cbn [lv] in *; rewrite E3, E4; exact L). split; [exact L'|].
  intros n d Hn Hd. rewrite (dsame_at (SH [] [] N D) _ _ [] [] n d S); [auto|now apply wf_dpos| |].
  - apply (lv_dbelow k); auto; congruence.
  - repeat split; cbn; auto.
Qed.
Lemma pl_ext k v F G : (forall n d, In n (indices N) -> In d (indices D) -> F n d = G n d) -> pl k dat v F -> pl k dat v G.
Proof. intros E (t & -> & P & L & V). exists t. split; [reflexivity|]. split; [exact P|]. split; [exact L|]. intros n d Hn Hd. rewrite V by auto. auto. Qed.
Lemma pl_le j k v F : (j <= k)%nat -> pl k dat v F -> pl j dat v F.
Proof. intros Lk (t & -> & P & L & V). exists t. split; [reflexivity|]. split; [exact P|]. split; [now apply (lv_le j k)|exact V]. Qed.
Lemma plt_facts t : plt t -> xd t = 0%nat /\ yd t = 0%nat /\ xm t = [] /\ ym t = [] /\ shp (tv t) = sN t ++ sD t /\ sX t = [] /\ sY t = [] /\ to_features t.
Proof.
  intros (W & X & Y). destruct (plain_facts t W X Y) as (X0 & Y0 & Mx & My & Sh). pose proof (wf_groups t W) as G.
  repeat (split; [assumption|]). split; [apply length_zero_iff_nil; now rewrite (g_x _ _ _ _ _ G)|]. split; [apply length_zero_iff_nil; now rewrite (g_y _ _ _ _ _ G)|].
  now apply plain_feat.
Qed.

(** ufuncs, negation *)
Lemma pl_np1 f k v F : pl k dat v F -> exists w, np1 f v = Ok w /\ pl k dat w (fun n d => f (F n d)).
Proof.
  intros (t & -> & P & L & V). destruct (plt_facts t P) as (X0 & Y0 & Mx & My & _). destruct P as (W & X & Y).
  destruct (unary_ok 0 f t W X0 Y0) as (r & Er & Wr & _ & De). exists (PT r). split; [unfold np1; now rewrite Er|].
  apply (pl_intro k r _ _ Wr De); auto. intros n d Hn Hd. rewrite get_dmap. now rewrite V.
Qed.
Lemma pl_neg k v F : pl k dat v F -> exists w, pneg v = Ok w /\ pl k dat w (fun n d => - F n d).
Proof.
  intros (t & -> & P & L & V). destruct P as (W & X & Y). destruct (tneg_ok t W) as (r & Er & Wr & De). exists (PT r). split; [cbn [pneg]; now rewrite Er|].
  apply (pl_intro k r _ _ Wr De); auto. intros n d Hn Hd. unfold dneg. rewrite get_dmap. now rewrite V.
Qed.

(** numbers *)
Lemma pl_num_add op k v F c : additive op = true -> pl k dat v F ->
  exists r, tbin_num (match v with PT t => t | _ => tnum 0 end) c op = Ok r /\ pl k dat (PT r) (fun n d => op_fun op (F n d) c).
Proof.
  intros A (t & -> & P & L & V). destruct P as (W & X & Y). destruct (tbin_add_num t c op W A) as (r & Er & Wr & De). exists r. split; [exact Er|].
  apply (pl_intro k r _ _ Wr De); auto. intros n d Hn Hd. rewrite get_dmap. now rewrite V.
Qed.
Lemma pl_num_mul op k v F c : op = MUL \/ op = DIV -> c <> 0 -> pl k dat v F ->
  exists r, tbin_num (match v with PT t => t | _ => tnum 0 end) c op = Ok r /\ pl k dat (PT r) (fun n d => op_fun op (F n d) c).
Proof.
  intros A Hc (t & -> & P & L & V). destruct P as (W & X & Y). destruct (tbin_mul_num t c op W A Hc) as (r & Er & Wr & De). exists r. split; [exact Er|].
  apply (pl_intro k r _ _ Wr De); auto. intros n d Hn Hd. rewrite get_dmap. now rewrite V.
Qed.
Lemma tnum_plt c : plt (tnum c).
Proof. split; [constructor; cbn; auto; repeat constructor|auto]. Qed.
Lemma pl_tnum c : pl 0 dat (PT (tnum c)) (fun _ _ => c).
Proof.
  exists (tnum c). split; [reflexivity|]. split; [apply tnum_plt|]. split; [left; auto|]. intros n d _ _. rewrite rank0_get; [reflexivity|apply tnum_plt|reflexivity].
Qed.
Lemma tbin_num_op v t c o : v = PT t -> py o v (PNum c) = rmap PT (tbin_num t c (direct o)) /\ py o (PNum c) v = rmap PT (tbin_num t c (reflected o)).
Proof. intros ->. cbn [py tbin tbin1]. split; (destruct (tbin_num _ _ _); reflexivity). Qed.
Lemma pl_inv k v F : pl k dat v F -> exists t, v = PT t.
Proof. intros (t & -> & _). eauto. Qed.
(** v + c, v - c *)
Lemma pl_addc o k v F c : o = OAdd \/ o = OSub -> pl k dat v F -> exists w, py o v (PNum c) = Ok w /\ pl k dat w (fun n d => rop o (F n d) c).
Proof.
  intros Ho H. destruct (pl_inv _ _ _ H) as [t ->]. rewrite (proj1 (tbin_num_op (PT t) t c o eq_refl)).
  destruct (pl_num_add (direct o) k (PT t) F c) as (r & Er & Pr); [destruct Ho as [-> | ->]; reflexivity|exact H|]. rewrite Er. exists (PT r). split; [reflexivity|].
  eapply pl_ext; [|exact Pr]. intros n d _ _. destruct Ho as [-> | ->]; reflexivity.
Qed.
(** c + v, c - v *)
Lemma pl_cadd o k v F c : o = OAdd \/ o = OSub -> pl k dat v F -> exists w, py o (PNum c) v = Ok w /\ pl k dat w (fun n d => rop o c (F n d)).
Proof.
  intros Ho H. destruct (pl_inv _ _ _ H) as [t ->]. rewrite (proj2 (tbin_num_op (PT t) t c o eq_refl)).
  destruct (pl_num_add (reflected o) k (PT t) F c) as (r & Er & Pr); [destruct Ho as [-> | ->]; reflexivity|exact H|]. rewrite Er. exists (PT r). split; [reflexivity|].
  eapply pl_ext; [|exact Pr]. intros n d _ _. destruct Ho as [-> | ->]; cbn [reflected op_fun rop]; ring.
Qed.
(** v * c and c * v: zero collapses *)
Lemma pl_mulc k v F c : pl k dat v F -> exists w, py OMul v (PNum c) = Ok w /\ pl (if Req_EM_T c 0 then 0 else k) dat w (fun n d => F n d * c).
Proof.
  intros H. destruct (pl_inv _ _ _ H) as [t ->]. rewrite (proj1 (tbin_num_op (PT t) t c OMul eq_refl)). cbn [direct]. destruct (Req_EM_T c 0) as [-> | Hc].
  - rewrite tbin_mul_zero. eexists. split; [reflexivity|]. eapply pl_ext; [|apply pl_tnum]. intros n d _ _. cbn. ring.
  - destruct (pl_num_mul MUL k (PT t) F c (or_introl eq_refl) Hc H) as (r & Er & Pr). rewrite Er. exists (PT r). split; [reflexivity|exact Pr].
Qed.
Lemma pl_cmul k v F c : pl k dat v F -> exists w, py OMul (PNum c) v = Ok w /\ pl (if Req_EM_T c 0 then 0 else k) dat w (fun n d => c * F n d).
Proof.
  intros H. destruct (pl_mulc k v F c H) as (w & Ew & Pw). destruct (pl_inv _ _ _ H) as [t ->].
  rewrite (proj1 (tbin_num_op (PT t) t c OMul eq_refl)) in Ew. rewrite (proj2 (tbin_num_op (PT t) t c OMul eq_refl)). exists w. split; [exact Ew|].
  eapply pl_ext; [|exact Pw]. intros n d _ _. cbn. ring.
Qed.
(** c / v *)
Lemma pl_cdiv k v F c : c <> 0 -> pl k dat v F -> exists w, py ODiv (PNum c) v = Ok w /\ pl k dat w (fun n d => c / F n d).
Proof.
  intros Hc (t & -> & P & L & V). rewrite (proj2 (tbin_num_op (PT t) t c ODiv eq_refl)). destruct (plt_facts t P) as (X0 & Y0 & Mx & My & _). destruct P as (W & X & Y).
  destruct (tbin_rdiv_num t c W) as (r & Er & Wr & De); [now rewrite Mx|now rewrite My|exact Hc|]. cbn [reflected]. rewrite Er. exists (PT r). split; [reflexivity|].
  apply (pl_intro k r _ _ Wr De); auto. intros n d Hn Hd. rewrite get_dmap. now rewrite V.
Qed.

(** two plain values *)
Lemma indices_ne : forall G, posl G -> indices G <> [].
Proof.
  induction G as [|s G IH]; intros P E; [discriminate|]. inversion P as [|? ? P1 P2]; subst. destruct s; [lia|]. cbn [indices seq flat_map] in E.
  apply app_eq_nil in E. destruct E as [E _]. apply map_eq_nil in E. exact (IH P2 E).
Qed.
Lemma plt_rank t : plt t -> shp (tv t) = [] <-> ns (den t) ++ ds (den t) = [].
Proof. intros P. destruct (plt_facts t P) as (_ & _ & _ & _ & Sh & _). cbn [den ns ds]. now rewrite Sh. Qed.
Lemma lv_bok k1 k2 a b : lv k1 dat a -> lv k2 dat b -> bok (ns a) (ns b) /\ bok (ds a) (ds b).
Proof.
  intros H1 H2. apply lv0 in H1, H2.
  assert (Q : forall c, lv 0 dat c -> below (ns c) N /\ below (ds c) D).
  { intros c [[E1 E2]|[E1 E2]]; [rewrite E1, E2; split; now left|split; now right]. }
  destruct (Q a H1) as [A1 A2]. destruct (Q b H2) as [B1 B2]. split; eapply below_bok; eauto.
Qed.
Lemma pl_core k1 k2 s o op F G : plt s -> plt o -> lv k1 dat (den s) -> lv k2 dat (den o) -> shp (tv o) <> [] -> op = ADD \/ op = SUB \/ op = MUL \/ op = DIV ->
  (forall n d, In n (indices N) -> In d (indices D) -> get (den s) [] [] n d = F n d) ->
  (forall n d, In n (indices N) -> In d (indices D) -> get (den o) [] [] n d = G n d) ->
  exists r, tbin_t s o op = Ok (PT r) /\ pl (Nat.max k1 k2) dat (PT r) (fun n d => op_fun op (F n d) (G n d)).
Proof.
  intros Ps Po Ls Lo Ro Hop Vs Vo. destruct (plt_facts s Ps) as (X0 & Y0 & Mx & My & Sh & EX & EY & Fs). destruct (plt_facts o Po) as (X0' & Y0' & Mx' & My' & Sh' & EX' & EY' & Fo).
  pose proof Ps as (Ws & Hx & Hy). pose proof Po as (Wo & Hx' & Hy'). destruct (lv_bok _ _ _ _ Ls Lo) as [B1 B2].
  assert (E : exists r, tbin_tensor s o op = Ok (PT r) /\ wf r /\ dsame (den r) (dbin (op_fun op) (den s) (den o))).
  { destruct (shp (tv s)) as [|s0 sh0] eqn:Es.
    - destruct (tbin_rank0 s o op Ws Wo Es) as (r & Er & Wr & _ & De); [auto|]. eauto.
    - assert (C : compat s o) by (constructor; rewrite ?EX, ?EY, ?EX', ?EY', ?Mx, ?My, ?Mx', ?My'; try (now left); try (intros f []); auto).
      assert (Rs : shp (tv s) <> []) by (rewrite Es; discriminate).
      destruct Hop as [-> | [-> | Hop]].
      + destruct (tadd_same s o ADD Ws Wo Fs Fo C Rs eq_refl) as (r & Er & Wr & _ & _ & _ & De); [congruence|congruence|]. eauto.
      + destruct (tadd_same s o SUB Ws Wo Fs Fo C Rs eq_refl) as (r & Er & Wr & _ & _ & _ & De); [congruence|congruence|]. eauto.
      + destruct (tmul_ok s o op Ws Wo Fs Fo C Rs) as (r & Er & Wr & _ & De); [left; congruence|left; congruence| |eauto].
        destruct Hop as [-> | ->]; [now left|right; left; auto]. }
  destruct E as (r & Er & Wr & De). exists r. split; [unfold tbin_t; destruct (shp (tv o)); [congruence|exact Er]|].
  apply (pl_intro _ r _ _ Wr De); [cbn [dbin xs]; now rewrite Hx, Hx'|cbn [dbin ys]; now rewrite Hy, Hy'|now apply lv_bin|].
  intros n d Hn Hd. rewrite get_dbin. now rewrite Vs, Vo.
Qed.
Lemma pl_get0 o F : plt o -> shp (tv o) = [] -> (forall n d, In n (indices N) -> In d (indices D) -> get (den o) [] [] n d = F n d) ->
  forall n d, In n (indices N) -> In d (indices D) -> F n d = el (tv o) [].
Proof. intros (W & _) E V n d Hn Hd. rewrite <- V by auto. now apply rank0_get. Qed.
Lemma rop_direct o a b : op_fun (direct o) a b = rop o a b.
Proof. destruct o; reflexivity. Qed.
Lemma pl_as o k1 k2 u v F G : o = OAdd \/ o = OSub -> pl k1 dat u F -> pl k2 dat v G -> exists w, py o u v = Ok w /\ pl (Nat.max k1 k2) dat w (fun n d => rop o (F n d) (G n d)).
Proof.
  intros Ho H1 H2. pose proof H1 as (s & -> & Ps & Ls & Vs). pose proof H2 as (t & -> & Pt & Lt & Vt). cbn [py tbin]. destruct (shp (tv t)) as [|a0 sh0] eqn:Er.
  - assert (K : k2 = O) by (apply (lv_rank _ _ Lt), plt_rank; auto). subst k2. rewrite Nat.max_0_r.
    destruct (pl_num_add (direct o) k1 (PT s) F (el (tv t) [])) as (r & E & Pr); [destruct Ho as [-> | ->]; reflexivity|exact H1|].
    unfold tbin_t. rewrite Er, E. exists (PT r). split; [reflexivity|]. eapply pl_ext; [|exact Pr]. intros n d Hn Hd. cbv beta. rewrite (pl_get0 t G Pt Er Vt n d Hn Hd). apply rop_direct.
  - destruct (pl_core k1 k2 s t (direct o) F G Ps Pt Ls Lt) as (r & E & Pr); auto; [rewrite Er; discriminate|destruct Ho as [-> | ->]; cbn; auto|].
    exists (PT r). split; [exact E|]. eapply pl_ext; [|exact Pr]. intros n d _ _. apply rop_direct.
Qed.
Definition mlev (k1 k2 : nat) : nat := match k2 with O => O | _ => Nat.max k1 k2 end.
Lemma pl_mul k1 k2 u v F G : pl k1 dat u F -> pl k2 dat v G -> exists w, py OMul u v = Ok w /\ pl (mlev k1 k2) dat w (fun n d => F n d * G n d).
Proof.
  intros H1 H2. pose proof H1 as (s & -> & Ps & Ls & Vs). pose proof H2 as (t & -> & Pt & Lt & Vt). cbn [py tbin]. destruct (shp (tv t)) as [|a0 sh0] eqn:Er.
  - assert (K : k2 = O) by (apply (lv_rank _ _ Lt), plt_rank; auto). subst k2. cbn [mlev].
    destruct (pl_mulc k1 (PT s) F (el (tv t) []) H1) as (w & Ew & Pw). rewrite (proj1 (tbin_num_op (PT s) s _ OMul eq_refl)) in Ew. unfold tbin_t. rewrite Er. cbn [direct] in *.
    destruct (tbin_num s (el (tv t) []) MUL) as [r|]; [|discriminate]. injection Ew as <-. exists (PT r). split; [reflexivity|].
    apply (pl_le 0 (if Req_EM_T (el (tv t) []) 0 then 0 else k1)); [lia|]. eapply pl_ext; [|exact Pw]. intros n d Hn Hd. cbv beta. now rewrite (pl_get0 t G Pt Er Vt n d Hn Hd).
  - destruct (pl_core k1 k2 s t MUL F G Ps Pt Ls Lt) as (r & E & Pr); auto; [rewrite Er; discriminate|].
    exists (PT r). split; [exact E|]. apply (pl_le _ (Nat.max k1 k2)); [unfold mlev; destruct k2; lia|exact Pr].
Qed.
Lemma pl_div k1 k2 u v F G : (k2 = O -> forall n d, In n (indices N) -> In d (indices D) -> G n d <> 0) -> pl k1 dat u F -> pl k2 dat v G ->
  exists w, py ODiv u v = Ok w /\ pl (Nat.max k1 k2) dat w (fun n d => F n d / G n d).
Proof.
  intros NZ H1 H2. pose proof H1 as (s & -> & Ps & Ls & Vs). pose proof H2 as (t & -> & Pt & Lt & Vt). cbn [py tbin]. destruct (shp (tv t)) as [|a0 sh0] eqn:Er.
  - assert (K : k2 = O) by (apply (lv_rank _ _ Lt), plt_rank; auto). subst k2. rewrite Nat.max_0_r.
    assert (C : el (tv t) [] <> 0).
    { destruct (indices N) as [|n0 ?] eqn:I1; [exfalso; exact (indices_ne N pN I1)|]. destruct (indices D) as [|d0 ?] eqn:I2; [exfalso; exact (indices_ne D pD I2)|].
      rewrite <- (pl_get0 t G Pt Er Vt n0 d0); [|rewrite I1; now left|rewrite I2; now left]. apply NZ; auto; now left. }
    destruct (pl_num_mul DIV k1 (PT s) F (el (tv t) []) (or_intror eq_refl) C H1) as (r & E & Pr). unfold tbin_t. rewrite Er. cbn [direct]. rewrite E. exists (PT r). split; [reflexivity|].
    eapply pl_ext; [|exact Pr]. intros n d Hn Hd. cbv beta. now rewrite (pl_get0 t G Pt Er Vt n d Hn Hd).
  - destruct (pl_core k1 k2 s t DIV F G Ps Pt Ls Lt) as (r & E & Pr); auto; [rewrite Er; discriminate|].
    exists (PT r). split; [exact E|exact Pr].
Qed.
End dat.
