(** Sum.add and Product.add keep the meaning. *)
From Verif Require Import Prelude DenseModel FuncModel AnalyticSpec FuncSpec DenseProofs FuncLemmas FuncAffine FuncSum FuncWrapP FuncCompose FuncProduct FlattenModel FlattenSpec FlattenProofs.
From Coquelicot Require Import Coquelicot.
From Coq Require Import Reals Lra.
Import List ListNotations.
Open Scope R_scope.

(** *** induction over trees *)
Lemma fexpr_ind' (P : fexpr -> Prop) :
  (forall f, P (ELeaf f)) -> (forall e a b, P e -> P (EAffine e a b)) ->
  (forall nf nd b atoms, Forall (fun x => P (snd x)) atoms -> P (ESum nf nd b atoms)) ->
  (forall nf nd atoms, Forall (fun x => P (snd x)) atoms -> P (EProduct nf nd atoms)) ->
  forall e, P e.
Proof.
  intros H1 H2 H3 H4. fix IH 1. intros [f|e a b|nf nd b atoms|nf nd atoms].
  - apply H1.
  - apply H2, IH.
  - apply H3. induction atoms as [|[[w m] e] l IHl]; constructor; [apply IH|exact IHl].
  - apply H4. induction atoms as [|[m e] l IHl]; constructor; [apply IH|exact IHl].
Qed.

(** *** Sum *)
Lemma fold_dadd_axes l t o : Forall (fun u => ax_sub (ns u) (fst o) /\ ax_sub (ds u) (snd o)) (t :: l) ->
  ax_sub (ns (fold_left dadd l t)) (fst o) /\ ax_sub (ds (fold_left dadd l t)) (snd o).
Proof.
  revert t; induction l as [|u l IH]; intros t H; inversion H as [|? ? [A B] H']; subst; cbn; auto.
  inversion H' as [|? ? [A' B'] H'']; subst. apply IH. constructor; auto. cbn. split; now apply ax_sub_bmax.
Qed.
Lemma fold_dadd_xy (F : dt -> list nat) l t : (forall a b, F (dadd a b) = bmax (F a) (F b)) ->
  Forall (fun u => F u = []) (t :: l) -> F (fold_left dadd l t) = [].
Proof.
  intros HF. revert t; induction l as [|u l IH]; intros t H; inversion H as [|? ? A H']; subst; cbn; auto.
  inversion H' as [|? ? A' H'']; subst. apply IH. constructor; auto. now rewrite HF, A, A'.
Qed.
Lemma dsum_axes_ok m l o : Forall (fun u => ax_sub (ns u) (fst o) /\ ax_sub (ds u) (snd o) /\ axes m u) l ->
  ax_sub (ns (dsum l)) (fst o) /\ ax_sub (ds (dsum l)) (snd o) /\ axes m (dsum l).
Proof.
  intros H. unfold dsum.
  destruct (fold_dadd_axes l dzero o) as [A B].
  { constructor; [split; left; reflexivity|]. eapply Forall_impl; [|exact H]. intros u (U1 & U2 & _); auto. }
  split; auto. split; auto. destruct m as [|i|i j]; cbn [axes] in *; auto.
  - split; [apply (fold_dadd_xy xs l dzero)|apply (fold_dadd_xy ys l dzero)]; auto; constructor; auto;
      (eapply Forall_impl; [|exact H]); intros u (_ & _ & U1 & U2); auto.
  - apply (fold_dadd_xy ys l dzero); auto; constructor; auto. eapply Forall_impl; [|exact H]. intros u (_ & _ & U2); auto.
Qed.

Section SumAsk.
Context (ss : list pst) (atoms : list (R * sfun)) (b : R) (out : pst).
Hypothesis A : Forall (fun p => exists o, okf ss o (snd p) /\ ax_le (fst o) (fst out) /\ ax_le (snd o) (snd out)) atoms.
Lemma sum_ask ps m : has_sts ps ss -> m_lt (length ss) m ->
  exists t, ask (s_sum atoms b) ps m = Ok t /\ ax_sub (ns t) (fst out) /\ ax_sub (ds t) (snd out) /\ axes m t /\
    forall x y n d, get t x y n d = Rsum (fun p => fst p * rd (snd p) ps m x y n d) atoms + iscall m * b.
Proof.
  intros H Hm.
  assert (OKS : forall M, (forall f, M f = ask f ps m) ->
     rmapM (fun '(w, a) => let! v := M a in Ok (dscal w v)) atoms = Ok (terms atoms M) /\
     ax_sub (ns (dsum (terms atoms M))) (fst out) /\ ax_sub (ds (dsum (terms atoms M))) (snd out) /\ axes m (dsum (terms atoms M)) /\
     forall x y n d, get (dsum (terms atoms M)) x y n d = Rsum (fun p => fst p * rd (snd p) ps m x y n d) atoms).
  { intros M EM. split; [|split; [|split; [|split]]].
    - apply terms_ok. eapply Forall_impl; [|exact A]. intros p (o & O & _). rewrite EM.
      destruct (ok_ask _ _ _ O ps m H Hm) as (t & E & _). eauto.
    - apply (dsum_axes_ok m). unfold terms. apply Forall_map. eapply Forall_impl; [|exact A]. intros p (o & O & O1 & O2). rewrite EM.
      destruct (okf_val _ _ _ ps m O H Hm) as (_ & B1 & B2 & B3). split; [eapply ax_sub_trans; eauto|]. split; [eapply ax_sub_trans; eauto|]. destruct m; exact B3.
    - apply (dsum_axes_ok m). unfold terms. apply Forall_map. eapply Forall_impl; [|exact A]. intros p (o & O & O1 & O2). rewrite EM.
      destruct (okf_val _ _ _ ps m O H Hm) as (_ & B1 & B2 & B3). split; [eapply ax_sub_trans; eauto|]. split; [eapply ax_sub_trans; eauto|]. destruct m; exact B3.
    - apply (dsum_axes_ok m _ out). unfold terms. apply Forall_map. eapply Forall_impl; [|exact A]. intros p (o & O & O1 & O2). rewrite EM.
      destruct (okf_val _ _ _ ps m O H Hm) as (_ & B1 & B2 & B3). split; [eapply ax_sub_trans; eauto|]. split; [eapply ax_sub_trans; eauto|]. destruct m; exact B3.
    - intros. rewrite get_terms. apply Rsum_ext; intros p _. now rewrite EM. }
  destruct m as [|i|i j]; cbn [ask s_sum f_call f_grad f_hess].
  - destruct (OKS (fun f => f_call f ps) (fun _ => eq_refl)) as (-> & B1 & B2 & B3 & B4). cbn [rbind].
    eexists; split; [reflexivity|]. split; [auto|]. split; [auto|]. split; [auto|].
    intros. unfold dshift. rewrite get_dmap, B4. cbn [iscall]. ring.
  - destruct (OKS (fun f => f_grad f ps i) (fun _ => eq_refl)) as (-> & B1 & B2 & B3 & B4). cbn [rbind].
    eexists; split; [reflexivity|]. split; [auto|]. split; [auto|]. split; [auto|].
    intros. rewrite B4. cbn [iscall]. ring.
  - destruct (OKS (fun f => f_hess f ps i j) (fun _ => eq_refl)) as (-> & B1 & B2 & B3 & B4). cbn [rbind].
    eexists; split; [reflexivity|]. split; [auto|]. split; [auto|]. split; [auto|].
    intros. rewrite B4. cbn [iscall]. ring.
Qed.
Lemma sum_okf : okf ss out (s_sum atoms b).
Proof.
  constructor; [|cbn; discriminate|cbn; discriminate].
  intros ps m H Hm. destruct (sum_ask ps m H Hm) as (t & ? & ? & ? & ? & _). eauto 6.
Qed.
End SumAsk.

(** reading without knowing the shape of the result *)
Lemma sum_read ss atoms b ps m : Forall (fun p => exists o, okf ss o (snd p)) atoms -> has_sts ps ss -> m_lt (length ss) m ->
  exists t, ask (s_sum atoms b) ps m = Ok t /\
    forall x y n d, get t x y n d = Rsum (fun p => fst p * rd (snd p) ps m x y n d) atoms + iscall m * b.
Proof.
  intros A H Hm.
  assert (OKS : forall M, (forall f, M f = ask f ps m) ->
     rmapM (fun '(w, a) => let! v := M a in Ok (dscal w v)) atoms = Ok (terms atoms M) /\
     forall x y n d, get (dsum (terms atoms M)) x y n d = Rsum (fun p => fst p * rd (snd p) ps m x y n d) atoms).
  { intros M EM. split.
    - apply terms_ok. eapply Forall_impl; [|exact A]. intros p (o & O). rewrite EM.
      destruct (ok_ask _ _ _ O ps m H Hm) as (t & E & _). eauto.
    - intros. rewrite get_terms. apply Rsum_ext; intros p _. now rewrite EM. }
  destruct m as [|i|i j]; cbn [ask s_sum f_call f_grad f_hess].
  - destruct (OKS (fun f => f_call f ps) (fun _ => eq_refl)) as (-> & B4). cbn [rbind].
    eexists; split; [reflexivity|]. intros. unfold dshift. rewrite get_dmap, B4. cbn [iscall]. ring.
  - destruct (OKS (fun f => f_grad f ps i) (fun _ => eq_refl)) as (-> & B4). cbn [rbind].
    eexists; split; [reflexivity|]. intros. rewrite B4. cbn [iscall]. ring.
  - destruct (OKS (fun f => f_hess f ps i j) (fun _ => eq_refl)) as (-> & B4). cbn [rbind].
    eexists; split; [reflexivity|]. intros. rewrite B4. cbn [iscall]. ring.
Qed.

(** *** Product *)
Section ProdAsk.
Context (ss : list pst) (atoms : list sfun).
Hypothesis A : Forall (fun f => exists o, okf ss o f) atoms.
Notation m := (length atoms).
Notation ak k := (nth k atoms fnull).
Lemma A_k k : (k < m)%nat -> exists o, okf ss o (ak k).
Proof. intros Hk. rewrite Forall_forall in A. apply A, nth_In, Hk. Qed.
Lemma all_ok ps mm : has_sts ps ss -> m_lt (length ss) mm ->
  rmapM (fun f => ask f ps mm) atoms = Ok (map (fun f => val (ask f ps mm)) atoms).
Proof.
  intros H Hm. apply rmapM_all_ok. intros f Hf. rewrite Forall_forall in A. destruct (A f Hf) as (o & O).
  apply (okf_val _ _ _ ps mm O H Hm).
Qed.
Definition Vv ps n d k : R := rd (ak k) ps MCall [] [] n d.
Definition Gv ps i x n d k : R := rd (ak k) ps (MGrad i) x [] n d.
Definition Hv ps i j x y n d k : R := rd (ak k) ps (MHess i j) x y n d.
Lemma okf_noxy k ps x y n d : has_sts ps ss -> (k < m)%nat -> rd (ak k) ps MCall x y n d = Vv ps n d k.
Proof.
  intros H Hk. destruct (A_k k Hk) as (o & O). destruct (okf_val _ _ _ ps MCall O H I) as (_ & _ & _ & E1 & E2).
  unfold Vv, rd, get. now rewrite E1, E2.
Qed.
Lemma okf_noy k ps i x y n d : has_sts ps ss -> (i < length ss)%nat -> (k < m)%nat -> rd (ak k) ps (MGrad i) x y n d = Gv ps i x n d k.
Proof.
  intros H Hi Hk. destruct (A_k k Hk) as (o & O). destruct (okf_val _ _ _ ps (MGrad i) O H Hi) as (_ & _ & _ & E2).
  unfold Gv, rd, get. cbn [axes] in E2. now rewrite E2.
Qed.
Lemma get_PP ps e x y n d : has_sts ps ss ->
  get (dprod (map (fun f => val (f_call f ps)) atoms) e) x y n d = Rprod (Vv ps n d) (keep m e).
Proof.
  intros H. rewrite get_dprod, map_length. apply Rprod_ext. intros k Hk. apply keep_lt in Hk.
  rewrite (nth_map_atoms atoms (fun f => val (f_call f ps))) by auto. now apply (okf_noxy k ps).
Qed.
Lemma product_ask ps : atoms <> [] -> has_sts ps ss ->
  (exists v, f_call (s_product atoms) ps = Ok v /\ (forall x y n d, get v x y n d = Rprod (Vv ps n d) (seq 0 m))) /\
  (forall i, (i < length ss)%nat -> exists g, f_grad (s_product atoms) ps i = Ok g /\
     forall x y n d, get g x y n d = LG (Vv ps n d) (Gv ps i x n d) m) /\
  (forall i j, (i < length ss)%nat -> (j < length ss)%nat -> exists h, f_hess (s_product atoms) ps i j = Ok h /\
     forall x y n d, get h x y n d = LH (Vv ps n d) (Gv ps i x n d) (Gv ps j y n d) (Hv ps i j x y n d) m).
Proof.
  intros Hne H. pose proof (all_ok ps MCall H I) as EV. cbn [ask] in EV.
  assert (EG : forall i, (i < length ss)%nat -> rmapM (fun f => f_grad f ps i) atoms = Ok (map (fun f => val (f_grad f ps i)) atoms)).
  { intros i Hi. apply (all_ok ps (MGrad i) H Hi). }
  split; [|split].
  - cbn. unfold product_call. rewrite EV. cbn [rbind]. set (vs := map (fun f => val (f_call f ps)) atoms).
    destruct vs as [|v r] eqn:E. { apply map_eq_nil in E. contradiction. }
    cbn [dreduce]. eexists; split; [reflexivity|]. intros x y n d. rewrite <- keep_nil, <- (get_PP ps [] x y n d H). fold vs. rewrite E. unfold dprod.
    rewrite keep_nil.
    replace (map (fun i => nth i (v :: r) dzero) (seq 0 (length (v :: r)))) with (v :: r); [reflexivity|].
    apply nth_ext with (d := dzero) (d' := dzero); [now rewrite map_length, seq_length|].
    intros k Hk. now rewrite nth_map_seq.
  - intros i Hi. cbn. unfold product_grad. rewrite EV, (EG i Hi). cbn [rbind]. eexists; split; [reflexivity|].
    intros x y n d. rewrite get_dsum, Rsum_map. unfold LG. apply Rsum_ext; intros k Hk. apply in_seq in Hk.
    rewrite (nth_map_atoms atoms) by lia. rewrite get_dmul, get_PP by auto. f_equal. apply (okf_noy k ps i); auto; lia.
  - intros i j Hi Hj. cbn. unfold product_hess. rewrite EV, (EG i Hi), (EG j Hj). cbn [rbind].
    pose proof (all_ok ps (MHess i j) H (conj Hi Hj)) as EH. cbn [ask] in EH. rewrite EH. cbn [rbind].
    eexists; split; [reflexivity|]. intros x y n d. rewrite get_dsum, Rsum_flat_map. unfold LH. apply Rsum_ext; intros k Hk. apply in_seq in Hk.
    unfold product_hess_k. rewrite !Rsum_cons, Rsum_nil, Rplus_0_r. f_equal.
    + rewrite get_dsum, Rsum_map. apply Rsum_ext; intros l Hl. apply keep_lt in Hl.
      rewrite !(nth_map_atoms atoms) by lia. rewrite !get_dmul, get_dtrans, get_PP by auto. f_equal; [f_equal|].
      * apply (okf_noy k ps i); auto; lia.
      * apply (okf_noy l ps j); auto; lia.
    + rewrite (nth_map_atoms atoms) by lia. rewrite get_dmul, get_PP by auto. f_equal. 
Qed.
End ProdAsk.
