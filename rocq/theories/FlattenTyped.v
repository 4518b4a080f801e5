(** Flattening keeps shapes: after Sum.add / Product.add the object can still be
    called and has the shape of the un-flattened one. *)
From Verif Require Import Prelude DenseModel FuncModel AnalyticSpec FuncSpec DenseProofs FuncLemmas FuncAffine FuncSum FuncWrapP FuncCompose FuncProduct FlattenModel FlattenSpec FlattenProofs FlattenSum FlattenAdd FlattenTop.
From Coquelicot Require Import Coquelicot.
From Coq Require Import Reals Lra.
Import List ListNotations.
Open Scope R_scope.

(** *** shapes *)
Lemma bmax_nth a b k : length a = length b -> nth k (bmax a b) 1%nat = Nat.max (nth k a 1%nat) (nth k b 1%nat).
Proof.
  revert b k; induction a as [|s a IH]; intros [|s' b] k L; try (cbn in L; lia).
  - destruct k; reflexivity.
  - injection L as L. destruct k; cbn; auto.
Qed.
Lemma bmax_length a b : length a = length b -> length (bmax a b) = length a.
Proof. revert b; induction a as [|s a IH]; intros [|s' b] L; cbn in *; try lia. rewrite IH; lia. Qed.
Lemma bmax_map (f g : nat -> nat) l : bmax (map f l) (map g l) = map (fun k => Nat.max (f k) (g k)) l.
Proof. induction l as [|a l IH]; cbn; [auto|now rewrite IH]. Qed.
Lemma expand_bmax a b wh m : length a = length b ->
  expand_shape (bmax a b) wh m = bmax (expand_shape a wh m) (expand_shape b wh m).
Proof.
  intros L. unfold expand_shape. rewrite bmax_map. apply map_ext. intros k. destruct (index_of k wh); auto. now apply bmax_nth.
Qed.
Lemma expand_comp s wh nf wh' nf' : NoDup wh -> Forall (fun i => i < nf')%nat wh' -> length wh = nf' ->
  expand_shape (expand_shape s wh' nf') wh nf = expand_shape s (pick wh wh') nf.
Proof.
  intros Hn Hb Hl. unfold expand_shape at 1 3. apply map_ext. intros k.
  rewrite index_of_pick by (auto; now rewrite Hl). destruct (index_of k wh) as [j|] eqn:E; auto.
  apply index_of_lt in E as [E _]. now rewrite nth_expand_shape by lia.
Qed.
Lemma ax_le_bmax_l a b o : ax_le a o -> ax_le b o -> ax_le a (bmax a b).
Proof.
  unfold ax_le. intros H; revert b; induction H as [|s s' a o Hs H IH]; intros b Hb; inversion Hb; subst; cbn; constructor; auto. lia.
Qed.
Lemma ax_le_bmax_r a b o : ax_le a o -> ax_le b o -> ax_le b (bmax a b).
Proof. intros. rewrite bmax_comm. eapply ax_le_bmax_l; eauto. Qed.

Lemma jo_assoc a b c : jo (jo a b) c = jo a (jo b c).
Proof. unfold jo; cbn. now rewrite !bmax_assoc. Qed.
Lemma join_cons o os : join (o :: os) = jo o (join os).
Proof.
  unfold join. cbn [fold_left fst snd]. rewrite !bmax_nil_l.
  change (fold_left jo os (fst o, snd o) = jo o (fold_left jo os ([], []))).
  destruct o as [a b]. cbn [fst snd].
  assert (G : forall l u v, fold_left jo l (jo u v) = jo u (fold_left jo l v)).
  { induction l as [|x l IH]; cbn [fold_left]; intros; auto. rewrite <- IH. now rewrite jo_assoc. }
  rewrite <- G. f_equal. unfold jo; cbn. now rewrite !bmax_nil_r.
Qed.
Lemma join_app l l' : join (l ++ l') = jo (join l) (join l').
Proof. induction l as [|o l IH]; cbn [app]; [now rewrite jo_nil|]. now rewrite !join_cons, IH, jo_assoc. Qed.
Lemma join_1 o : join (o :: nil) = o.
Proof. destruct o. reflexivity. Qed.

Definition ple (a b : pst) : Prop := ax_le (fst a) (fst b) /\ ax_le (snd a) (snd b).
Lemma ple_trans a b c : ple a b -> ple b c -> ple a c.
Proof. intros [? ?] [? ?]; split; eapply ax_le_trans; eauto. Qed.
Lemma ple_refl a : ple a a. Proof. split; apply ax_le_refl. Qed.
Lemma ple_jo_l a b o : ple a o -> ple b o -> ple a (jo a b).
Proof. intros [? ?] [? ?]; split; eapply ax_le_bmax_l; eauto. Qed.
Lemma ple_jo_r a b o : ple a o -> ple b o -> ple b (jo a b).
Proof. intros [? ?] [? ?]; split; eapply ax_le_bmax_r; eauto. Qed.
Lemma ple_jo a b o : ple a o -> ple b o -> ple (jo a b) o.
Proof. intros [? ?] [? ?]; split; now apply ax_le_bmax. Qed.

(** *** lists of atoms *)
Definition shaped nf nd ss (l : list (maps * fexpr)) (outs : list pst) : Prop :=
  Forall2 (fun a o' => exists o, maps_ok ss nf nd (fst a) o /\ typed (snd a) (sel ss (m_pm (fst a))) o /\ o' = m_out nf nd (fst a) o) l outs.
Definition unw (a : R * maps * fexpr) : maps * fexpr := (snd (fst a), snd a).

Lemma p_typed_shaped nf nd ss l os : p_typed nf nd ss l os ->
  shaped nf nd ss l (map (fun '((m, _), o) => m_out nf nd m o) (combine l os)).
Proof.
  revert os; induction l as [|[m e] l IH]; intros [|o os]; cbn; intros T; try contradiction; constructor.
  - exists o. intuition.
  - apply IH. intuition.
Qed.
Lemma shaped_p_typed nf nd ss l outs : shaped nf nd ss l outs ->
  exists os, p_typed nf nd ss l os /\ outs = map (fun '((m, _), o) => m_out nf nd m o) (combine l os).
Proof.
  induction 1 as [|[m e] o' l outs (o & M & T & ->) H (os & IH & E)]; [exists []; cbn; auto|].
  exists (o :: os). cbn in *. split; [auto|]. now rewrite <- E.
Qed.
Lemma s_typed_shaped nf nd ss l os : s_typed nf nd ss l os ->
  shaped nf nd ss (map unw l) (map (fun '((_, m, _), o) => m_out nf nd m o) (combine l os)).
Proof.
  revert os; induction l as [|[[w m] e] l IH]; intros [|o os]; cbn; intros T; try contradiction; constructor.
  - exists o. cbn. intuition.
  - apply IH. intuition.
Qed.
Lemma shaped_s_typed nf nd ss l outs : shaped nf nd ss (map unw l) outs ->
  exists os, s_typed nf nd ss l os /\ outs = map (fun '((_, m, _), o) => m_out nf nd m o) (combine l os).
Proof.
  revert outs; induction l as [|[[w m] e] l IH]; cbn; intros outs H; inversion H as [|? ? ? ? H1 H2]; subst; [exists []; cbn; auto|].
  destruct H1 as (o & M & T & ->). destruct (IH _ H2) as (os & IHs & ->). exists (o :: os). cbn in *. auto.
Qed.
Lemma typed_sum_shaped nf nd b atoms ss out : typed (ESum nf nd b atoms) ss out <->
  exists outs, atoms <> [] /\ shaped nf nd ss (map unw atoms) outs /\ broadcastable outs /\ out = join outs.
Proof.
  rewrite typed_sum. split.
  - intros (os & N & T & B & E). eexists. split; [exact N|]. split; [apply s_typed_shaped; exact T|]. split; [exact B|exact E].
  - intros (outs & N & T & B & E). destruct (shaped_s_typed _ _ _ _ _ T) as (os & T' & ->). eauto 6.
Qed.
Lemma typed_product_shaped nf nd atoms ss out : typed (EProduct nf nd atoms) ss out <->
  exists outs, atoms <> [] /\ shaped nf nd ss atoms outs /\ broadcastable outs /\ out = join outs.
Proof.
  rewrite typed_product. split.
  - intros (os & N & T & B & E). eexists. split; [exact N|]. split; [apply p_typed_shaped; exact T|]. split; [exact B|exact E].
  - intros (outs & N & T & B & E). destruct (shaped_p_typed _ _ _ _ _ T) as (os & T' & ->). eauto 6.
Qed.

Lemma broadcastable_app l l' o : broadcastable l -> broadcastable l' -> ple (join l) o -> ple (join l') o -> broadcastable (l ++ l').
Proof.
  unfold broadcastable. intros H H' P P'. rewrite join_app. rewrite Forall_forall in *. intros x Hx. apply in_app_iff in Hx as [Hx|Hx].
  - apply (ple_trans x (join l)); [apply H; auto|]. eapply ple_jo_l; eauto.
  - apply (ple_trans x (join l')); [apply H'; auto|]. eapply ple_jo_r; eauto.
Qed.
(** [l] flattened has shape [out] *)
Definition flatok nf nd ss l out : Prop := exists outs, l <> [] /\ shaped nf nd ss l outs /\ broadcastable outs /\ out = join outs.
Lemma flatok_app nf nd ss l l' o1 o2 o : flatok nf nd ss l o1 -> flatok nf nd ss l' o2 -> ple o1 o -> ple o2 o ->
  flatok nf nd ss (l ++ l') (jo o1 o2).
Proof.
  intros (u1 & N1 & S1 & B1 & ->) (u2 & N2 & S2 & B2 & ->) P1 P2. exists (u1 ++ u2). split; [|split; [|split]].
  - destruct l; [contradiction|discriminate].
  - now apply Forall2_app.
  - eapply broadcastable_app; eauto.
  - now rewrite join_app.
Qed.
Lemma flatok_1 nf nd ss m e o : maps_ok ss nf nd m o -> typed e (sel ss (m_pm m)) o -> flatok nf nd ss ((m, e) :: nil) (m_out nf nd m o).
Proof.
  intros M T. exists (m_out nf nd m o :: nil). split; [discriminate|]. split; [|split].
  - repeat constructor. exists o. auto.
  - constructor; auto. rewrite join_1. apply ple_refl.
  - now rewrite join_1.
Qed.

Definition pexp nf nd (m : maps) (o : pst) : pst := m_out nf nd m o.
Lemma m_out_jo nf nd m a b : length (fst a) = length (fst b) -> length (snd a) = length (snd b) ->
  m_out nf nd m (jo a b) = jo (m_out nf nd m a) (m_out nf nd m b).
Proof. intros. unfold m_out, w_out, jo. cbn [fst snd]. now rewrite !expand_bmax. Qed.
Lemma m_out_comp ss nf nd nf' nd' m mk o ok : maps_ok ss nf nd m o -> maps_ok (sel ss (m_pm m)) nf' nd' mk ok ->
  length (fst o) = nf' -> length (snd o) = nd' ->
  m_out nf nd (mcomp m mk) ok = m_out nf nd m (m_out nf' nd' mk ok).
Proof.
  intros (_ & _ & W) (_ & _ & W') L1 L2. destruct W as [A1 A2 A3 A4 A5 A6 A7], W' as [B1 B2 B3 B4 B5 B6 B7].
  unfold m_out, w_out. cbn [w_fm w_dm w_nf w_nd mkw mcomp m_fm m_dm fst snd] in *. rewrite !expand_comp by (auto; lia). reflexivity.
Qed.
Lemma m_out_ple ss nf nd m a o : maps_ok ss nf nd m o -> ple a o -> ple (m_out nf nd m a) (m_out nf nd m o).
Proof.
  intros (_ & _ & W) [P1 P2]. destruct W as [A1 A2 A3 A4 A5 A6 A7]. cbn in *. unfold flat in A7. apply Forall_app in A7 as [Q1 Q2].
  split; cbn; apply ax_le_expand; auto; now right.
Qed.
Lemma ple_len a b : ple a b -> length (fst a) = length (fst b) /\ length (snd a) = length (snd b).
Proof. intros [? ?]; split; now apply ax_le_length. Qed.
Lemma join_ple l o : l <> [] -> Forall (fun x => ple x o) l -> ple (join l) o.
Proof.
  intros N H. induction H as [|x l Hx H IH]; [contradiction|]. rewrite join_cons. destruct l as [|y l].
  - change (join []) with (@nil nat, @nil nat). unfold jo; cbn. rewrite !bmax_nil_r. destruct x; auto.
  - apply ple_jo; auto. apply IH. discriminate.
Qed.
Lemma shaped_in nf nd ss l outs m e : shaped nf nd ss l outs -> In (m, e) l ->
  exists o, maps_ok ss nf nd m o /\ typed e (sel ss (m_pm m)) o /\ In (m_out nf nd m o) outs.
Proof.
  induction 1 as [|[m' e'] o' l outs (o & M & T & ->) H IH]; [intros []|]. intros [E|Hi].
  - injection E as -> ->. exists o. cbn; auto.
  - destruct (IH Hi) as (o1 & ? & ? & ?). exists o1. cbn; auto.
Qed.

(** *** the loops *)
Section Loop.
Context (ss : list pst) (nf nd nf' nd' : nat) (m : maps) (o : pst).
Hypothesis M : maps_ok ss nf nd m o.
Hypothesis Lf : length (fst o) = nf'.
Hypothesis Ld : length (snd o) = nd'.
(** the flattened pieces [As] of the atoms [l] *)
Lemma flatok_loop l outs (As : list (list (maps * fexpr))) :
  shaped nf' nd' (sel ss (m_pm m)) l outs -> Forall (fun x => ple x o) outs -> l <> [] ->
  Forall2 (fun a A => forall ok, maps_ok (sel ss (m_pm m)) nf' nd' (fst a) ok -> typed (snd a) (sel (sel ss (m_pm m)) (m_pm (fst a))) ok ->
     flatok nf nd ss A (m_out nf nd (mcomp m (fst a)) ok)) l As ->
  flatok nf nd ss (concat As) (m_out nf nd m (join outs)).
Proof.
  intros H. revert As. induction H as [|[mk e] o' l outs (ok & Mk & Tk & ->) H IH]; intros As P N FA; [contradiction|].
  inversion FA as [|? A ? As' F1 F2]; subst. inversion P as [|? ? P1 P2]; subst. cbn [fst snd] in *. specialize (F1 ok Mk Tk).
  rewrite (m_out_comp _ _ _ _ _ _ _ _ _ M Mk eq_refl eq_refl) in F1. cbn [concat]. rewrite join_cons.
  destruct l as [|a l].
  - inversion H; subst. inversion F2; subst. cbn [concat]. rewrite app_nil_r. change (join []) with (@nil nat, @nil nat).
    unfold jo; cbn [fst snd]. rewrite !bmax_nil_r. exact F1.
  - assert (Q : ple (join outs) o). { apply join_ple; auto. inversion H; discriminate. }
    rewrite m_out_jo.
    + eapply (flatok_app _ _ _ _ _ _ _ (m_out nf nd m o)); [exact F1| |eapply m_out_ple; eauto|eapply m_out_ple; eauto].
      apply IH; auto. discriminate.
    + apply ple_len in P1, Q. destruct P1, Q. congruence.
    + apply ple_len in P1, Q. destruct P1, Q. congruence.
Qed.
End Loop.

Lemma shaped_ple nf nd ss l outs : shaped nf nd ss l outs -> broadcastable outs -> Forall (fun x => ple x (join outs)) outs.
Proof. intros _ B. exact B. Qed.
Lemma shaped_len nf nd ss l outs : l <> [] -> shaped nf nd ss l outs -> broadcastable outs ->
  length (fst (join outs)) = nf /\ length (snd (join outs)) = nd.
Proof.
  intros N H B. destruct H as [|[m e] o' l outs (o & M & T & ->) H]; [contradiction|].
  inversion B as [|? ? [B1 B2] _]; subst. apply ax_le_length in B1, B2. rewrite <- B1, <- B2. unfold m_out, w_out. cbn [fst snd w_nf w_nd w_fm w_dm mkw].
  now rewrite !expand_shape_length.
Qed.

Lemma sum_flat_typed : forall foo ss m o w S, typed foo (sel ss (m_pm m)) o -> maps_ok ss (s_nf S) (s_nd S) m o ->
  exists A B, sum_add foo S m w = Ok (mkSum (s_nf S) (s_nd S) (s_b S + B) (s_atoms S ++ A)) /\
    flatok (s_nf S) (s_nd S) ss (map unw A) (m_out (s_nf S) (s_nd S) m o).
Proof.
  assert (LEAF : forall foo ss m o w S, typed foo (sel ss (m_pm m)) o -> maps_ok ss (s_nf S) (s_nd S) m o ->
    exists A B, Ok (mkSum (s_nf S) (s_nd S) (s_b S) (s_atoms S ++ ((w, m, foo) :: nil))) =
      Ok (mkSum (s_nf S) (s_nd S) (s_b S + B) (s_atoms S ++ A)) /\ flatok (s_nf S) (s_nd S) ss (map unw A) (m_out (s_nf S) (s_nd S) m o)).
  { intros foo ss m o w S T M. exists ((w, m, foo) :: nil), 0. split; [now rewrite Rplus_0_r|]. cbn [map unw fst snd]. apply flatok_1; assumption. }
  induction foo as [f|e a b IH|nf nd b atoms IH|nf nd atoms IH] using fexpr_ind'; intros ss m o w S T M.
  - exact (LEAF (ELeaf f) ss m o w S T M).
  - destruct (IH ss m o (w * a) (sum_addb S b) T M) as (A & B & E & G).
    exists A, (b + B). cbn [sum_add]. rewrite E. split; [cbn; f_equal; f_equal; ring|]. exact G.
  - pose proof T as T0. apply typed_sum_shaped in T as (outs & Hne & T & Bc & Eo). rewrite sum_add_sum.
    assert (Hne' : map unw atoms <> []) by (destruct atoms; [contradiction|discriminate]).
    destruct (shaped_len _ _ _ _ _ Hne' T Bc) as [L1 L2]. rewrite <- Eo in L1, L2.
    assert (GO : forall l S1, (forall x, In x l -> In x atoms) -> s_nf S1 = s_nf S -> s_nd S1 = s_nd S ->
      exists As B, sum_go m w l S1 = Ok (mkSum (s_nf S) (s_nd S) (s_b S1 + B) (s_atoms S1 ++ concat As)) /\
        Forall2 (fun a A => forall ok, maps_ok (sel ss (m_pm m)) nf nd (fst a) ok -> typed (snd a) (sel (sel ss (m_pm m)) (m_pm (fst a))) ok ->
          flatok (s_nf S) (s_nd S) ss A (m_out (s_nf S) (s_nd S) (mcomp m (fst a)) ok)) (map unw l) (map (map unw) As)).
    { induction l as [|[[wk mk] e] l IHl]; intros S1 Hl E1 E2.
      - exists [], 0. cbn [sum_go concat]. split; [rewrite Rplus_0_r, app_nil_r, <- E1, <- E2; destruct S1; reflexivity|]. constructor.
      - assert (Hi : In (wk, mk, e) atoms) by (apply Hl; cbn; auto).
        assert (Hi' : In (mk, e) (map unw atoms)) by (apply in_map_iff; exists (wk, mk, e); auto).
        destruct (shaped_in _ _ _ _ _ _ _ T Hi') as (ok & Mk & Te & Io).
        destruct (comp_bounds _ _ _ _ _ _ _ _ _ M Mk L1 L2) as (P1 & P2 & P3).
        pose proof (comp_ok _ _ _ _ _ _ _ _ _ M Mk L1 L2) as CM.
        pose proof (comp_sel _ _ _ _ _ _ _ _ _ M Mk L1 L2) as CS.
        rewrite Forall_forall in IH.
        destruct (IH (wk, mk, e) Hi ss (mcomp m mk) ok (wk * w) S1) as (A1 & B1 & R1 & G1).
        { cbn [snd]. now rewrite CS. } { now rewrite E1, E2. }
        destruct (IHl (mkSum (s_nf S1) (s_nd S1) (s_b S1 + B1) (s_atoms S1 ++ A1))) as (A2 & B2 & R2 & K1); auto.
        { intros; apply Hl; cbn; auto. }
        exists (A1 :: A2), (B1 + B2). cbn [sum_go]. rewrite !imap_pick by auto. cbn [rbind].
        cbn [snd] in R1. unfold mcomp in R1. rewrite R1. cbn [rbind]. rewrite R2. cbn [s_b s_atoms concat]. rewrite E1, E2 in *.
        split; [rewrite app_assoc; f_equal; f_equal; ring|]. cbn [map]. constructor; auto.
        intros ok' Mk' Te'. cbn [fst snd unw] in *.
        destruct (IH (wk, mk, e) Hi ss (mcomp m mk) ok' (wk * w) S1) as (A1' & B1' & R1' & G1').
        { cbn [snd]. now rewrite CS. } { rewrite E1, E2. exact (comp_ok _ _ _ _ _ _ _ _ _ M Mk' L1 L2). }
        cbn [snd] in R1'. unfold mcomp in R1'. rewrite R1 in R1'. injection R1' as _ _ _ Q. apply app_inv_head in Q as ->. rewrite E1, E2 in G1'. exact G1'. }
    destruct (GO atoms (sum_addb S b)) as (As & B & E & G1); auto.
    exists (concat As), (b + B). rewrite E. cbn [s_b s_atoms sum_addb]. split; [f_equal; f_equal; ring|].
    rewrite concat_map, Eo. apply (flatok_loop ss (s_nf S) (s_nd S) nf nd m o M L1 L2 (map unw atoms)); [exact T| |exact Hne'|exact G1].
    + rewrite Eo. now apply (shaped_ple _ _ _ _ _ T).
  - exact (LEAF (EProduct nf nd atoms) ss m o w S T M).
Qed.

Lemma prod_flat_typed : forall foo ss m o P, typed foo (sel ss (m_pm m)) o -> maps_ok ss (p_nf P) (p_nd P) m o ->
  exists A, prod_add foo P m = Ok (mkProd (p_nf P) (p_nd P) (p_atoms P ++ A)) /\
    flatok (p_nf P) (p_nd P) ss A (m_out (p_nf P) (p_nd P) m o).
Proof.
  assert (LEAF : forall foo ss m o P, typed foo (sel ss (m_pm m)) o -> maps_ok ss (p_nf P) (p_nd P) m o ->
    exists A, Ok (mkProd (p_nf P) (p_nd P) (p_atoms P ++ ((m, foo) :: nil))) =
      Ok (mkProd (p_nf P) (p_nd P) (p_atoms P ++ A)) /\ flatok (p_nf P) (p_nd P) ss A (m_out (p_nf P) (p_nd P) m o)).
  { intros foo ss m o P T M. exists ((m, foo) :: nil). split; [auto|]. now apply flatok_1. }
  induction foo as [f|e a b IH|nf nd b atoms IH|nf nd atoms IH] using fexpr_ind'; intros ss m o P T M;
    try (cbn [prod_add]; apply (LEAF _ ss m o); auto).
  pose proof T as T0. apply typed_product_shaped in T as (outs & Hne & T & Bc & Eo). rewrite prod_add_prod.
  destruct (shaped_len _ _ _ _ _ Hne T Bc) as [L1 L2]. rewrite <- Eo in L1, L2.
  assert (GO : forall l P1, (forall x, In x l -> In x atoms) -> p_nf P1 = p_nf P -> p_nd P1 = p_nd P ->
    exists As, prod_go m l P1 = Ok (mkProd (p_nf P) (p_nd P) (p_atoms P1 ++ concat As)) /\
      Forall2 (fun a A => forall ok, maps_ok (sel ss (m_pm m)) nf nd (fst a) ok -> typed (snd a) (sel (sel ss (m_pm m)) (m_pm (fst a))) ok ->
        flatok (p_nf P) (p_nd P) ss A (m_out (p_nf P) (p_nd P) (mcomp m (fst a)) ok)) l As).
  { induction l as [|[mk e] l IHl]; intros P1 Hl E1 E2.
    - exists []. cbn [prod_go concat]. split; [rewrite app_nil_r, <- E1, <- E2; destruct P1; reflexivity|]. constructor.
    - assert (Hi : In (mk, e) atoms) by (apply Hl; cbn; auto).
      destruct (shaped_in _ _ _ _ _ _ _ T Hi) as (ok & Mk & Te & Io).
      destruct (comp_bounds _ _ _ _ _ _ _ _ _ M Mk L1 L2) as (P1' & P2 & P3).
      pose proof (comp_ok _ _ _ _ _ _ _ _ _ M Mk L1 L2) as CM.
      pose proof (comp_sel _ _ _ _ _ _ _ _ _ M Mk L1 L2) as CS.
      rewrite Forall_forall in IH.
      destruct (IH (mk, e) Hi ss (mcomp m mk) ok P1) as (A1 & R1 & G1).
      { cbn [snd]. now rewrite CS. } { now rewrite E1, E2. }
      destruct (IHl (mkProd (p_nf P1) (p_nd P1) (p_atoms P1 ++ A1))) as (A2 & R2 & K1); auto.
      { intros; apply Hl; cbn; auto. }
      exists (A1 :: A2). cbn [prod_go]. rewrite !imap_pick by auto. cbn [rbind].
      cbn [snd] in R1. unfold mcomp in R1. rewrite R1. cbn [rbind]. rewrite R2. cbn [p_atoms concat]. rewrite E1, E2 in *.
      split; [now rewrite app_assoc|]. constructor; auto.
      intros ok' Mk' Te'. cbn [fst snd] in *.
      destruct (IH (mk, e) Hi ss (mcomp m mk) ok' P1) as (A1' & R1' & G1').
      { cbn [snd]. now rewrite CS. } { rewrite E1, E2. exact (comp_ok _ _ _ _ _ _ _ _ _ M Mk' L1 L2). }
      cbn [snd] in R1'. unfold mcomp in R1'. rewrite R1 in R1'. injection R1' as _ _ Q. apply app_inv_head in Q as ->. rewrite E1, E2 in G1'. exact G1'. }
  destruct (GO atoms P) as (As & E & G1); auto.
  exists (concat As). rewrite E. split; [auto|].
  rewrite Eo. apply (flatok_loop ss (p_nf P) (p_nd P) nf nd m o M L1 L2 atoms); auto.
  rewrite Eo. now apply (shaped_ple _ _ _ _ _ T).
Qed.
