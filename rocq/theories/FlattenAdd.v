(** Sum.add and Product.add keep the meaning. *)
From Verif Require Import Prelude DenseModel FuncModel AnalyticSpec FuncSpec DenseProofs FuncLemmas FuncAffine FuncSum FuncWrapP FuncCompose FuncProduct FlattenModel FlattenSpec FlattenProofs FlattenSum.
From Coquelicot Require Import Coquelicot.
From Coq Require Import Reals Lra.
Import List ListNotations.
Open Scope R_scope.

Lemma product_okf ss atoms out : atoms <> [] ->
  Forall (fun f => exists o, okf ss o f /\ ax_le (fst o) (fst out) /\ ax_le (snd o) (snd out)) atoms ->
  okf ss out (s_product atoms).
Proof.
  intros Hne A. constructor; [|cbn; discriminate|cbn; discriminate].
  assert (A' : Forall (fun f => exists o, okf ss o f) atoms) by (eapply Forall_impl; [|exact A]; intros f (o & ? & _); eauto).
  assert (AX : forall ps mm, has_sts ps ss -> m_lt (length ss) mm ->
     Forall (fun u => ax_sub (ns u) (fst out) /\ ax_sub (ds u) (snd out) /\ axes mm u) (map (fun f => val (ask f ps mm)) atoms)).
  { intros ps mm H Hm. apply Forall_map. eapply Forall_impl; [|exact A]. intros f (o & O & O1 & O2).
    destruct (okf_val _ _ _ ps mm O H Hm) as (_ & B1 & B2 & B3). split; [eapply ax_sub_trans; eauto|]. split; [eapply ax_sub_trans; eauto|auto]. }
  intros ps mm H Hm.
  assert (WV : Forall (weak out) (map (fun f => val (f_call f ps)) atoms)).
  { pose proof (AX ps MCall H I) as V. eapply Forall_impl; [|exact V]. intros u (U1 & U2 & U3 & U4). repeat split; auto. }
  assert (PW : forall e, weak out (dprod (map (fun f => val (f_call f ps)) atoms) e)) by (intros e; now apply weak_dprod).
  assert (NG : forall i k, (i < length ss)%nat -> (k < length atoms)%nat ->
     ax_sub (ns (nth k (map (fun f => val (f_grad f ps i)) atoms) dzero)) (fst out) /\ ax_sub (ds (nth k (map (fun f => val (f_grad f ps i)) atoms) dzero)) (snd out) /\
     ys (nth k (map (fun f => val (f_grad f ps i)) atoms) dzero) = []).
  { intros i k Hi Hk. pose proof (AX ps (MGrad i) H Hi) as V. rewrite Forall_forall in V. apply (V _). apply nth_In. now rewrite map_length. }
  pose proof (all_ok ss atoms A' ps MCall H I) as EV. cbn [ask] in EV.
  assert (EG : forall i, (i < length ss)%nat -> rmapM (fun f => f_grad f ps i) atoms = Ok (map (fun f => val (f_grad f ps i)) atoms)).
  { intros i Hi. apply (all_ok ss atoms A' ps (MGrad i) H Hi). }
  destruct mm as [|i|i j]; cbn [ask].
  - destruct (product_ask ss atoms A' ps Hne H) as ((v & E & _) & _). exists v. split; auto.
    cbn in E. unfold product_call in E. rewrite EV in E. cbn [rbind] in E.
    assert (v = dprod (map (fun f => val (f_call f ps)) atoms) []) as ->.
    { unfold dprod. rewrite keep_nil. set (vs := map (fun f => val (f_call f ps)) atoms) in *.
      replace (map (fun i => nth i vs dzero) (seq 0 (length vs))) with vs.
      - now rewrite E.
      - apply nth_ext with (d := dzero) (d' := dzero); [now rewrite map_length, seq_length|]. intros k Hk. now rewrite nth_map_seq. }
    destruct (PW []) as (P1 & P2 & P3 & P4). cbn [axes]. auto.
  - cbn [m_lt] in Hm. cbn. unfold product_grad. rewrite EV, (EG i Hm). cbn [rbind]. eexists; split; [reflexivity|].
    apply (dsum_axes_ok (MGrad i)). apply Forall_map, Forall_forall. intros k Hk. apply in_seq in Hk.
    destruct (PW (k :: nil)) as (P1 & P2 & P3 & P4), (NG i k Hm ltac:(lia)) as (N1 & N2 & N3).
    cbn [dmul dbin ns ds xs ys axes]. rewrite P2, N3. split; [now apply ax_sub_bmax|]. split; [now apply ax_sub_bmax|reflexivity].
  - destruct Hm as [Hi Hj]. cbn. unfold product_hess. rewrite EV, (EG i Hi), (EG j Hj). cbn [rbind].
    pose proof (all_ok ss atoms A' ps (MHess i j) H (conj Hi Hj)) as EH. cbn [ask] in EH. rewrite EH. cbn [rbind].
    eexists; split; [reflexivity|]. apply (dsum_axes_ok (MHess i j)). apply Forall_flat_map, Forall_forall. intros k Hk. apply in_seq in Hk.
    destruct (NG i k Hi ltac:(lia)) as (N1 & N2 & N3).
    unfold product_hess_k. constructor; [|constructor; auto].
    + apply (dsum_axes_ok (MHess i j)). apply Forall_map, Forall_forall. intros l Hl. apply keep_lt in Hl.
      destruct (PW [k; l]) as (P1 & P2 & P3 & P4), (NG j l Hj ltac:(lia)) as (Q1 & Q2 & Q3).
      cbn [dmul dbin dtrans ns ds axes]. split; [apply ax_sub_bmax; auto; now apply ax_sub_bmax|]. split; [apply ax_sub_bmax; auto; now apply ax_sub_bmax|exact I].
    + destruct (PW (k :: nil)) as (P1 & P2 & P3 & P4).
      pose proof (AX ps (MHess i j) H (conj Hi Hj)) as V. rewrite Forall_forall in V.
      destruct (V (nth k (map (fun f => val (ask f ps (MHess i j))) atoms) dzero)) as (Q1 & Q2 & _); [apply nth_In; rewrite map_length; lia|].
      cbn [dmul dbin ns ds axes]. split; [now apply ax_sub_bmax|]. split; [now apply ax_sub_bmax|exact I].
Qed.

(** *** typed trees *)
Section Typed.
Variables (nf nd : nat) (ss : list pst).
Fixpoint s_typed (l : list (R * maps * fexpr)) (os : list pst) : Prop :=
  match l, os with
  | [], [] => True
  | (_, m, e') :: l', o :: os' => maps_ok ss nf nd m o /\ typed e' (sel ss (m_pm m)) o /\ s_typed l' os'
  | _, _ => False
  end.
Fixpoint p_typed (l : list (maps * fexpr)) (os : list pst) : Prop :=
  match l, os with
  | [], [] => True
  | (m, e') :: l', o :: os' => maps_ok ss nf nd m o /\ typed e' (sel ss (m_pm m)) o /\ p_typed l' os'
  | _, _ => False
  end.
End Typed.
Lemma typed_sum nf nd b atoms ss out : typed (ESum nf nd b atoms) ss out <->
  exists os, atoms <> [] /\ s_typed nf nd ss atoms os /\
    broadcastable (map (fun '((_, m, _), o) => m_out nf nd m o) (combine atoms os)) /\
    out = join (map (fun '((_, m, _), o) => m_out nf nd m o) (combine atoms os)).
Proof. reflexivity. Qed.
Lemma typed_product nf nd atoms ss out : typed (EProduct nf nd atoms) ss out <->
  exists os, atoms <> [] /\ p_typed nf nd ss atoms os /\
    broadcastable (map (fun '((m, _), o) => m_out nf nd m o) (combine atoms os)) /\
    out = join (map (fun '((m, _), o) => m_out nf nd m o) (combine atoms os)).
Proof. reflexivity. Qed.

(** every atom of a typed object, with its shape *)
Lemma s_typed_in nf nd ss atoms os w m e : s_typed nf nd ss atoms os -> In (w, m, e) atoms ->
  exists o, maps_ok ss nf nd m o /\ typed e (sel ss (m_pm m)) o /\
    In (m_out nf nd m o) (map (fun '((_, m, _), o) => m_out nf nd m o) (combine atoms os)).
Proof.
  revert os; induction atoms as [|[[w' m'] e'] l IH]; intros os H Hi; [destruct Hi|]. destruct os as [|o os]; [destruct H|].
  destruct H as (H1 & H2 & H3). destruct Hi as [E|Hi].
  - injection E as -> -> ->. exists o. cbn. auto.
  - destruct (IH os H3 Hi) as (o' & ? & ? & ?). exists o'. cbn. auto.
Qed.
Lemma p_typed_in nf nd ss atoms os m e : p_typed nf nd ss atoms os -> In (m, e) atoms ->
  exists o, maps_ok ss nf nd m o /\ typed e (sel ss (m_pm m)) o /\
    In (m_out nf nd m o) (map (fun '((m, _), o) => m_out nf nd m o) (combine atoms os)).
Proof.
  revert os; induction atoms as [|[m' e'] l IH]; intros os H Hi; [destruct Hi|]. destruct os as [|o os]; [destruct H|].
  destruct H as (H1 & H2 & H3). destruct Hi as [E|Hi].
  - injection E as -> ->. exists o. cbn. auto.
  - destruct (IH os H3 Hi) as (o' & ? & ? & ?). exists o'. cbn. auto.
Qed.

Lemma typed_okf e : forall ss out, typed e ss out -> okf ss out (den e).
Proof.
  induction e as [f|e a b IH|nf nd b atoms IH|nf nd atoms IH] using fexpr_ind'; intros ss out T.
  - destruct T. now apply okf_wf.
  - cbn. apply affine_okf. now apply IH.
  - apply typed_sum in T as (os & Hne & T & Bc & ->). cbn [den]. apply sum_okf. apply Forall_map, Forall_forall. intros [[w m] e] Hi.
    destruct (s_typed_in _ _ _ _ _ _ _ _ T Hi) as (o & M & Te & Io). cbn [snd].
    exists (m_out nf nd m o). split.
    + apply wrap_okf; auto. rewrite Forall_forall in IH. apply (IH _ Hi); auto.
    + unfold broadcastable in Bc. rewrite Forall_forall in Bc. exact (Bc _ Io).
  - apply typed_product in T as (os & Hne & T & Bc & ->). cbn [den]. apply product_okf.
    { intros C. apply map_eq_nil in C. contradiction. }
    apply Forall_map, Forall_forall. intros [m e] Hi.
    destruct (p_typed_in _ _ _ _ _ _ _ T Hi) as (o & M & Te & Io).
    exists (m_out nf nd m o). split.
    + apply wrap_okf; auto. rewrite Forall_forall in IH. apply (IH _ Hi); auto.
    + unfold broadcastable in Bc. rewrite Forall_forall in Bc. exact (Bc _ Io).
Qed.

Lemma s_typed_len nf nd ss atoms os out w m e o : s_typed nf nd ss atoms os ->
  broadcastable (map (fun '((_, m, _), o) => m_out nf nd m o) (combine atoms os)) ->
  out = join (map (fun '((_, m, _), o) => m_out nf nd m o) (combine atoms os)) ->
  In (w, m, e) atoms -> In (m_out nf nd m o) (map (fun '((_, m, _), o) => m_out nf nd m o) (combine atoms os)) ->
  length (fst out) = nf /\ length (snd out) = nd.
Proof.
  intros T Bc -> Hi Io. unfold broadcastable in Bc. rewrite Forall_forall in Bc. destruct (Bc _ Io) as [B1 B2].
  apply ax_le_length in B1, B2. rewrite <- B1, <- B2. unfold m_out, w_out. cbn [fst snd w_nf w_nd mkw]. now rewrite !expand_shape_length.
Qed.

(** *** Sum.add *)
Definition atom_good (ss : list pst) (nf nd : nat) (a : R * maps * fexpr) : Prop :=
  exists o, maps_ok ss nf nd (snd (fst a)) o /\ okf (sel ss (m_pm (snd (fst a)))) o (den (snd a)).
Definition ard (nf nd : nat) (a : R * maps * fexpr) ps mm x y n d : R :=
  fst (fst a) * rd (s_wrap (mkw nf nd (snd (fst a))) (den (snd a))) ps mm x y n d.
Definition flat_spec ss nf nd (foo : fexpr) m w (A : list (R * maps * fexpr)) (B : R) : Prop :=
  Forall (atom_good ss nf nd) A /\
  forall ps mm x y n d, has_sts ps ss -> m_lt (length ss) mm ->
    w * rd (s_wrap (mkw nf nd m) (den foo)) ps mm x y n d + iscall mm * drift w foo =
    Rsum (fun a => ard nf nd a ps mm x y n d) A + iscall mm * B.

Section Drifts.
Variable w : R.
Fixpoint drifts (l : list (R * maps * fexpr)) : R :=
  match l with [] => 0 | (wk, _, e) :: r => drift (wk * w) e + drifts r end.
End Drifts.
Lemma drift_sum w nf nd b atoms : drift w (ESum nf nd b atoms) = (1 - w) * b + drifts w atoms.
Proof. reflexivity. Qed.

Section Go.
Variables (m : maps) (w : R).
Fixpoint sum_go (l : list (R * maps * fexpr)) (S : sumobj) : res sumobj :=
  match l with
  | [] => Ok S
  | (wk, mk, e) :: r =>
      let! pm := imap (m_pm mk) (m_pm m) in
      let! fm := imap (m_fm mk) (m_fm m) in
      let! dm := imap (m_dm mk) (m_dm m) in
      let! S' := sum_add e S (mkM pm fm dm) (wk * w) in
      sum_go r S'
  end.
End Go.
Lemma sum_add_sum nf nd b atoms S m w : sum_add (ESum nf nd b atoms) S m w = sum_go m w atoms (sum_addb S b).
Proof. reflexivity. Qed.

Lemma sum_flat : forall foo ss m o w S, typed foo (sel ss (m_pm m)) o -> maps_ok ss (s_nf S) (s_nd S) m o ->
  exists A B, sum_add foo S m w = Ok (mkSum (s_nf S) (s_nd S) (s_b S + B) (s_atoms S ++ A)) /\
    flat_spec ss (s_nf S) (s_nd S) foo m w A B.
Proof.
  assert (LEAF : forall foo ss m o w S, okf (sel ss (m_pm m)) o (den foo) -> maps_ok ss (s_nf S) (s_nd S) m o ->
    drift w foo = 0 -> exists A B, Ok (mkSum (s_nf S) (s_nd S) (s_b S) (s_atoms S ++ ((w, m, foo) :: nil))) =
      Ok (mkSum (s_nf S) (s_nd S) (s_b S + B) (s_atoms S ++ A)) /\ flat_spec ss (s_nf S) (s_nd S) foo m w A B).
  { intros foo ss m o w S O M Dz. exists ((w, m, foo) :: nil), 0. split; [now rewrite Rplus_0_r|]. split.
    - constructor; auto. exists o. auto.
    - intros. rewrite Rsum_cons, Rsum_nil, Dz. unfold ard. cbn [fst snd]. ring. }
  induction foo as [f|e a b IH|nf nd b atoms IH|nf nd atoms IH] using fexpr_ind'; intros ss m o w S T M.
  - apply (LEAF (ELeaf f) ss m o); auto. now apply (typed_okf (ELeaf f)).
  - destruct (IH ss m o (w * a) (sum_addb S b) T M) as (A & B & E & G1 & G2).
    exists A, (b + B). cbn [sum_add]. rewrite E. split; [cbn; f_equal; f_equal; ring|]. cbn [s_nf s_nd sum_addb] in *. split; auto.
    intros ps mm x y n d H Hm. cbn [drift den].
    pose proof (G2 ps mm x y n d H Hm) as G. pose proof M as (N1 & B1 & W1).
    assert (O : okf (sel ss (m_pm m)) o (den e)) by now apply typed_okf.
    rewrite (wrap_rd ss _ _ m o _ ps mm) in * by auto.
    rewrite (wrap_rd ss _ _ m o _ ps mm) by (auto; now apply affine_okf).
    destruct (mmap (m_pm m) mm) as [m'|] eqn:Em.
    + destruct (affine_ask (sel ss (m_pm m)) o (den e) a b (wsub (m_pm m) ps) m' O) as (t & Et & _ & _ & _ & Q).
      { now apply wsub_sts. } { rewrite sel_length. eapply mmap_lt, Em. }
      unfold rd at 1. rewrite Et. cbn [val]. rewrite Q, (iscall_mmap _ _ _ Em). nra.
    + assert (iscall mm = 0) by (destruct mm; [discriminate| |]; reflexivity). rewrite H0 in *. nra.
  - pose proof T as T0. apply typed_sum in T as (os & Hne & T & Bc & Eo). rewrite sum_add_sum.
    (* the loop over the atoms *)
    assert (GO : forall l S1, (forall x, In x l -> In x atoms) -> s_nf S1 = s_nf S -> s_nd S1 = s_nd S ->
      exists A B, sum_go m w l S1 = Ok (mkSum (s_nf S) (s_nd S) (s_b S1 + B) (s_atoms S1 ++ A)) /\
        Forall (atom_good ss (s_nf S) (s_nd S)) A /\
        forall ps mm x y n d, has_sts ps ss -> m_lt (length ss) mm ->
          w * (match mmap (m_pm m) mm with
               | Some m' => Rsum (fun a => ard nf nd a (wsub (m_pm m) ps) m' x y (pull (m_fm m) n) (pull (m_dm m) d)) l
               | None => 0 end) + iscall mm * drifts w l =
          Rsum (fun a => ard (s_nf S) (s_nd S) a ps mm x y n d) A + iscall mm * B).
    { induction l as [|[[wk mk] e] l IHl]; intros S1 Hl E1 E2.
      - exists [], 0. cbn [sum_go]. split; [rewrite Rplus_0_r, app_nil_r, <- E1, <- E2; destruct S1; reflexivity|]. split; auto.
        intros. cbn [drifts]. destruct (mmap (m_pm m) mm); rewrite ?Rsum_nil; ring.
      - assert (Hi : In (wk, mk, e) atoms) by (apply Hl; cbn; auto).
        destruct (s_typed_in _ _ _ _ _ _ _ _ T Hi) as (ok & Mk & Te & Io).
        destruct (s_typed_len _ _ _ _ _ _ _ _ _ ok T Bc Eo Hi Io) as [L1 L2].
        destruct (comp_bounds _ _ _ _ _ _ _ _ _ M Mk L1 L2) as (P1 & P2 & P3).
        pose proof (comp_ok _ _ _ _ _ _ _ _ _ M Mk L1 L2) as CM.
        pose proof (comp_sel _ _ _ _ _ _ _ _ _ M Mk L1 L2) as CS.
        rewrite Forall_forall in IH. 
        destruct (IH (wk, mk, e) Hi ss (mcomp m mk) ok (wk * w) S1) as (A1 & B1 & R1 & G1 & G2).
        { cbn [snd]. now rewrite CS. } { now rewrite E1, E2. }
        destruct (IHl (mkSum (s_nf S1) (s_nd S1) (s_b S1 + B1) (s_atoms S1 ++ A1))) as (A2 & B2 & R2 & K1 & K2); auto.
        { intros; apply Hl; cbn; auto. }
        exists (A1 ++ A2), (B1 + B2). cbn [sum_go]. rewrite !imap_pick by auto. cbn [rbind].
        cbn [snd] in R1. unfold mcomp in R1. rewrite R1. cbn [rbind]. rewrite R2. cbn [s_b s_atoms]. rewrite E1, E2 in *.
        split; [rewrite app_assoc; f_equal; f_equal; ring|]. split; [now apply Forall_app|].
        intros ps mm x y n d H Hm. rewrite Rsum_app. cbn [drifts].
        pose proof (G2 ps mm x y n d H Hm) as Q1. pose proof (K2 ps mm x y n d H Hm) as Q2. cbn [snd] in Q1.
        rewrite (comp_rd _ _ _ _ _ _ _ _ _ M Mk L1 L2) in Q1 by (auto; now apply typed_okf).
        assert (Q3 : w * match mmap (m_pm m) mm with
          | Some m' => Rsum (fun a => ard nf nd a (wsub (m_pm m) ps) m' x y (pull (m_fm m) n) (pull (m_dm m) d)) ((wk, mk, e) :: l)
          | None => 0 end =
          wk * w * match mmap (m_pm m) mm with
            | Some m' => rd (s_wrap (mkw nf nd mk) (den e)) (wsub (m_pm m) ps) m' x y (pull (m_fm m) n) (pull (m_dm m) d)
            | None => 0 end +
          w * match mmap (m_pm m) mm with
          | Some m' => Rsum (fun a => ard nf nd a (wsub (m_pm m) ps) m' x y (pull (m_fm m) n) (pull (m_dm m) d)) l
          | None => 0 end).
        { destruct (mmap (m_pm m) mm); [|ring]. rewrite Rsum_cons. unfold ard at 1. cbn [fst snd]. ring. }
        rewrite Q3. lra. }
    destruct (GO atoms (sum_addb S b)) as (A & B & E & G1 & G2); auto.
    exists A, (b + B). rewrite E. cbn [s_b s_atoms sum_addb]. split; [f_equal; f_equal; ring|]. split; auto.
    intros ps mm x y n d H Hm. rewrite drift_sum. pose proof (G2 ps mm x y n d H Hm) as G.
    pose proof (typed_okf _ _ _ T0) as O. pose proof M as (N1 & B1 & W1).
    rewrite (wrap_rd ss _ _ m o _ ps mm) by auto.
    destruct (mmap (m_pm m) mm) as [m'|] eqn:Em.
    + assert (Am : m_lt (length (sel ss (m_pm m))) m') by (rewrite sel_length; eapply mmap_lt, Em).
      cbn [den]. destruct (sum_read (sel ss (m_pm m)) (map (fun '(w, m, e') => (w, s_wrap (mkw nf nd m) (den e'))) atoms) b (wsub (m_pm m) ps) m') as (t & Et & Q); auto.
      { apply Forall_map, Forall_forall. intros [[wk mk] e] Hi. destruct (s_typed_in _ _ _ _ _ _ _ _ T Hi) as (ok & Mk & Te & Io).
        eexists. cbn [snd]. apply wrap_okf; eauto. now apply typed_okf. }
      { now apply wsub_sts. }
      unfold rd at 1. rewrite Et. cbn [val]. rewrite Q, (iscall_mmap _ _ _ Em), Rsum_map.
      rewrite (Rsum_ext _ (fun a => ard nf nd a (wsub (m_pm m) ps) m' x y (pull (m_fm m) n) (pull (m_dm m) d))).
      2:{ intros [[wk mk] e] _. reflexivity. }
      lra.
    + assert (Z : iscall mm = 0) by (destruct mm; [discriminate| |]; reflexivity). rewrite Z in *. lra.
  - apply (LEAF (EProduct nf nd atoms) ss m o); auto. now apply typed_okf.
Qed.
