(** Parameters and values: numbers, numpy arrays and Tensors without x and y
    axes, all read as arrays of numbers. *)
From Verif Require Import Prelude DenseModel AnalyticSpec DenseProofs NDArray NDProofs TensorModel TensorSpec TensorSpecOps TensorLemmas TensorBasic TensorSum TensorSumMain TensorBin TensorArith TensorShape TensorExpand TensorGeneric TensorGSum TensorDotCore TensorDot TensorUfunc TensorUfuncP FuncModel FuncSpec FTModel FTRep FTRep2 FTRep3.
From Coq Require Import Reals Lra.
Import List ListNotations.
Open Scope R_scope.
Section ex.
Context {ex : exdims}.

(** [pv s p h]: the Python value [p] has axes [s] and entries [h] *)
Definition pv (s : pst) (p : pval) (h : idx -> R) : Prop :=
  match p with
  | PNum c => flat s = [] /\ h [] = c
  | PArr a => snd s = [] /\ shp a = fst s /\ forall i, In i (indices (flat s)) -> el a i = h i
  | PT t => wf t /\ xs (den t) = [] /\ ys (den t) = [] /\ ns (den t) = fst s /\ ds (den t) = snd s /\
            forall n d, In n (indices (fst s)) -> In d (indices (snd s)) -> get (den t) [] [] n d = h (n ++ d)
  | PG _ => False
  end.
Definition kind (p : pval) : nat := match p with PNum _ => 0 | PArr _ => 1 | PT _ => 2 | PG _ => 3 end.

Lemma pv_ext s p h h' : (forall i, In i (indices (flat s)) -> h i = h' i) -> pv s p h -> pv s p h'.
Proof.
  intros E. destruct p as [c|a|t|g]; cbn [pv]; auto.
  - intros [F H]. split; auto. rewrite <- E; auto. rewrite F. now left.
  - intros (H1 & H2 & H3). repeat split; auto. intros i Hi. rewrite H3 by auto. now apply E.
  - intros (H1 & H2 & H3 & H4 & H5 & H6). refine (conj H1 (conj H2 (conj H3 (conj H4 (conj H5 _))))). intros n d Hn Hd. rewrite H6 by auto. apply E. unfold flat. now apply in_indices_app2.
Qed.

Lemma plain_facts t : wf t -> xs (den t) = [] -> ys (den t) = [] ->
  xd t = 0%nat /\ yd t = 0%nat /\ xm t = [] /\ ym t = [] /\ shp (tv t) = sN t ++ sD t.
Proof.
  intros W Hx Hy. destruct (den_x_len t W) as [L1 L2]. rewrite Hx in L1. rewrite Hy in L2. cbn in L1, L2.
  pose proof (wf_groups t W) as G.
  assert (EX : sX t = []) by (apply length_zero_iff_nil; rewrite (g_x _ _ _ _ _ G); auto).
  assert (EY : sY t = []) by (apply length_zero_iff_nil; rewrite (g_y _ _ _ _ _ G); auto).
  repeat split; auto.
  - apply single_nil. pose proof (wf_x _ W) as [H _]. congruence.
  - apply single_nil. pose proof (wf_y _ W) as [H _]. congruence.
  - rewrite (g_shp _ _ _ _ _ G), EX, EY. reflexivity.
Qed.
Lemma plain_feat t : wf t -> xs (den t) = [] -> ys (den t) = [] -> to_features t.
Proof. intros W Hx Hy. destruct (plain_facts t W Hx Hy) as (_ & _ & A & B & _). unfold to_features. rewrite A, B. split; constructor. Qed.
Lemma get_plain t n d : wf t -> xs (den t) = [] -> ys (den t) = [] -> In n (indices (ns (den t))) -> In d (indices (ds (den t))) ->
  get (den t) [] [] n d = el (tv t) (n ++ d).
Proof.
  intros W Hx Hy Hn Hd. destruct (plain_facts t W Hx Hy) as (_ & _ & A & B & _). rewrite get_den by auto. rewrite A, B, !stored_nil, !deltas_nil, Hx, Hy. cbn [clamp app].
  cbn [den ns ds] in Hn, Hd. rewrite !clamp_in by auto. ring.
Qed.
(** any x and y coordinates may be given *)
Lemma get_plain_any t x y n d : xs (den t) = [] -> ys (den t) = [] -> get (den t) x y n d = get (den t) [] [] n d.
Proof. intros Hx Hy. unfold get. rewrite Hx, Hy. reflexivity. Qed.

Lemma pv_asarray s p h : pv s p h -> exists a, asarray p = Ok a /\ shp a = flat s /\ forall i, In i (indices (flat s)) -> el a i = h i.
Proof.
  destruct p as [c|a|t|g]; cbn [pv asarray]; [| | |tauto].
  - intros [F H]. exists (np_scalar c). split; [reflexivity|]. split; [now rewrite F|]. intros i Hi. rewrite F in Hi. destruct Hi as [<-|[]]. now rewrite H.
  - intros (H1 & H2 & H3). exists a. split; [reflexivity|]. split; [unfold flat; now rewrite H1, app_nil_r|auto].
  - intros (W & Hx & Hy & Hn & Hd & V). destruct (plain_facts t W Hx Hy) as (_ & _ & _ & _ & E). cbn [den ns ds] in Hn, Hd. exists (tv t). split; [reflexivity|].
    split; [now rewrite E, Hn, Hd|]. intros i Hi. unfold flat in Hi. apply in_indices_app in Hi as [Hi1 Hi2].
    rewrite <- (firstn_skipn (length (fst s)) i), <- V, get_plain by (auto; cbn [den ns ds]; congruence). reflexivity.
Qed.
Lemma pv_den s t D h : wf t -> dsame (den t) D -> xs D = [] -> ys D = [] -> ns D = fst s -> ds D = snd s ->
  (forall n d, In n (indices (fst s)) -> In d (indices (snd s)) -> at_ D [] [] n d = h (n ++ d)) -> pv s (PT t) h.
Proof.
  intros W (E1 & E2 & E3 & E4 & E5) Hx Hy Hn Hd V. cbn [pv]. refine (conj W (conj _ (conj _ (conj _ (conj _ _))))); try congruence. intros n d In1 In2.
  unfold get. rewrite E1, E2, E3, E4, Hx, Hy, Hn, Hd. cbn [clamp]. rewrite !clamp_in by auto. rewrite E5.
  - now apply V. - rewrite E1, Hx. now left. - rewrite E2, Hy. now left. - now rewrite E3, Hn. - now rewrite E4, Hd.
Qed.
Lemma pv_at s t h n d : pv s (PT t) h -> In n (indices (fst s)) -> In d (indices (snd s)) -> at_ (den t) [] [] n d = h (n ++ d).
Proof.
  intros (W & Hx & Hy & Hn & Hd & V) In1 In2. rewrite <- V by auto. unfold get. rewrite Hx, Hy, Hn, Hd. cbn [clamp]. now rewrite !clamp_in by auto.
Qed.
(** *** entrywise operations *)
Lemma pv_map s p h F : pv s p h -> exists p', np1 F p = Ok p' /\ pv s p' (fun i => F (h i)) /\ kind p' = Nat.max 1 (kind p).
Proof.
  destruct p as [c|a|t|g]; intros H; [| | |destruct H]; unfold np1.
  - destruct H as [H1 H2]. eexists. split; [reflexivity|]. split; [|reflexivity]. cbn [pv]. unfold flat in *. apply app_eq_nil in H1 as [-> ->]. cbn. repeat split; auto.
    intros i [<-|[]]. now rewrite H2.
  - destruct H as (H1 & H2 & H3). eexists. split; [reflexivity|]. split; [|reflexivity]. cbn [pv]. repeat split; auto. intros i Hi. cbn [np_map el]. now rewrite H3.
  - pose proof H as (W & Hx & Hy & Hn & Hd & V). destruct (plain_facts t W Hx Hy) as (X0 & Y0 & _).
    destruct (unary_ok 0 F t W X0 Y0) as (r & Er & Wr & _ & De). rewrite Er. exists (PT r). split; [reflexivity|]. split; [|reflexivity].
    apply (pv_den s r _ _ Wr De); auto. intros n d In1 In2. cbn [dmap at_]. f_equal. apply (pv_at s t h n d H); auto.
Qed.
Lemma flat_nil s : flat s = [] -> fst s = [] /\ snd s = [].
Proof. apply app_eq_nil. Qed.
Lemma posl_app a b : posl (a ++ b) -> posl a /\ posl b.
Proof. apply Forall_app. Qed.
Lemma pv_num o c s p h : posl (flat s) -> (o = OMul \/ o = ODiv -> c <> 0) -> (o = ODiv -> forall i, In i (indices (flat s)) -> h i <> 0) -> pv s p h ->
  exists p', py o (PNum c) p = Ok p' /\ pv s p' (fun i => rop o c (h i)) /\ kind p' = kind p.
Proof.
  intros P Hc Hd H. destruct p as [d|a|t|g]; [| | |destruct H].
  - destruct H as [H1 H2]. destruct o; cbn [py]; try (eexists; split; [reflexivity|]; split; [|reflexivity]; cbn [pv]; now rewrite H2).
    destruct (Req_EM_T d 0) as [E|_]; [exfalso; apply (Hd eq_refl []); [rewrite H1; now left|congruence]|].
    eexists; split; [reflexivity|]; split; [|reflexivity]; cbn [pv]; now rewrite H2.
  - destruct H as (H1 & H2 & H3). destruct (np_bin_scalar (rop o) (np_scalar c) a eq_refl) as (r & Er & Sr & Vr).
    { rewrite H2. unfold flat in P. now rewrite H1, app_nil_r in P. }
    cbn [py]. rewrite Er. exists (PArr r). split; [reflexivity|]. split; [|reflexivity]. cbn [pv]. split; [auto|]. split; [congruence|].
    intros i Hi. rewrite Vr by (rewrite H2; unfold flat in Hi; now rewrite H1, app_nil_r in Hi). cbn [np_scalar el]. now rewrite H3.
  - pose proof H as (W & Hx & Hy & Hn & Hd' & V). destruct (plain_facts t W Hx Hy) as (_ & _ & Mx & My & _).
    assert (HR : exists r, tbin_num t c (reflected o) = Ok r /\ wf r /\ dsame (den r) (dmap (fun v => op_fun (reflected o) v c) (den t))).
    { destruct o; cbn [reflected].
      - now apply tbin_add_num. - now apply tbin_add_num. - apply tbin_mul_num; auto.
      - destruct (tbin_rdiv_num t c W) as (r & Er & Wr & De); [unfold unmapped; now rewrite Mx|unfold unmapped; now rewrite My|auto|]. now exists r. }
    destruct HR as (r & Er & Wr & De). cbn [py tbin tbin1]. rewrite Er. exists (PT r). split; [reflexivity|]. split; [|reflexivity].
    apply (pv_den s r _ _ Wr De); auto. intros n d In1 In2. cbn [dmap at_]. rewrite (pv_at s t h n d H) by auto. destruct o; cbn [reflected op_fun rop]; try reflexivity; ring.
Qed.
Lemma pv_shift s p h b : posl (flat s) -> pv s p h -> exists p', py OAdd p (PNum b) = Ok p' /\ pv s p' (fun i => h i + b) /\ kind p' = kind p.
Proof.
  intros P H. destruct p as [d|a|t|g]; [| | |destruct H].
  - destruct H as [H1 H2]. cbn [py]. eexists; split; [reflexivity|]; split; [|reflexivity]; cbn [pv rop]; now rewrite H2.
  - destruct H as (H1 & H2 & H3). destruct (np_bin_scalar_r Rplus a b) as (r & Er & Sr & Vr).
    { rewrite H2. unfold flat in P. now rewrite H1, app_nil_r in P. }
    cbn [py rop]. rewrite Er. exists (PArr r). split; [reflexivity|]. split; [|reflexivity]. cbn [pv]. split; [auto|]. split; [congruence|].
    intros i Hi. rewrite Vr by (rewrite H2; unfold flat in Hi; now rewrite H1, app_nil_r in Hi). now rewrite H3.
  - pose proof H as (W & Hx & Hy & Hn & Hd' & V). destruct (tbin_add_num t b ADD W eq_refl) as (r & Er & Wr & De). cbn [py tbin tbin1 direct]. rewrite Er.
    exists (PT r). split; [reflexivity|]. split; [|reflexivity].
    apply (pv_den s r _ _ Wr De); auto. intros n d In1 In2. cbn [dmap at_ op_fun]. now rewrite (pv_at s t h n d H) by auto.
Qed.
Lemma bok_refl a : bok a a.
Proof. right; right. apply bcompat_refl. Qed.
Lemma bmax_idem a : bmax a a = a.
Proof. induction a; cbn; auto. now rewrite Nat.max_id, IHa. Qed.
Lemma pv_bin o s p p' h h' : o = OMul \/ o = ODiv -> posl (flat s) -> kind p = kind p' -> (o = ODiv -> forall i, In i (indices (flat s)) -> h' i <> 0) -> pv s p h -> pv s p' h' ->
  exists q, py o p p' = Ok q /\ pv s q (fun i => rop o (h i) (h' i)) /\ kind q = kind p.
Proof.
  intros Ho P K Hd H H'. destruct p as [c|a|t|g], p' as [c'|a'|t'|g']; cbn [kind] in K; try discriminate; [| | |destruct H].
  - destruct H as [F H], H' as [_ H']. cbn [py].
    assert (HN : o = ODiv -> c' <> 0) by (intros E; rewrite <- H'; apply Hd; auto; rewrite F; now left).
    destruct o; try (now destruct Ho); [|destruct (Req_EM_T c' 0) as [E|_]; [now apply HN in E|]];
    (eexists; split; [reflexivity|]; split; [|reflexivity]; cbn [pv]; now rewrite H, H').
  - destruct H as (H1 & H2 & H3), H' as (_ & H2' & H3'). assert (P1 : posl (fst s)) by (unfold flat in P; now rewrite H1, app_nil_r in P).
    destruct (np_bin_ok (rop o) a a') as (r & Er & Sr & Vr); [rewrite H2, H2'; apply bcompat_refl|now rewrite H2|now rewrite H2'|]. cbn [py]. rewrite Er.
    exists (PArr r). split; [reflexivity|]. split; [|reflexivity]. cbn [pv]. split; [auto|]. split; [rewrite Sr, H2, H2'; apply bmax_idem|].
    intros i Hi. pose proof Hi as Hi'. unfold flat in Hi'. rewrite H1, app_nil_r in Hi'. rewrite Vr by (unfold ndim; rewrite H2; now apply indices_length).
    rewrite H2, H2', !clamp_in by auto. now rewrite H3, H3'.
  - pose proof H as (W & Hx & Hy & Hn & Hdd & V). pose proof H' as (W' & Hx' & Hy' & Hn' & Hdd' & V').
    destruct (plain_facts t W Hx Hy) as (X0 & Y0 & Mx & My & Sh). destruct (plain_facts t' W' Hx' Hy') as (X0' & Y0' & Mx' & My' & Sh').
    cbn [den ns ds] in Hn, Hdd, Hn', Hdd'.
    cbn [py tbin]. unfold tbin_t. destruct (shp (tv t')) as [|s0 sh0] eqn:Es.
    + assert (F : flat s = []) by (unfold flat; rewrite <- Hn', <- Hdd'; now symmetry). destruct (flat_nil s F) as [F1 F2].
      assert (Ev : el (tv t') [] = h' []). { pose proof (get_plain t' [] [] W' Hx' Hy') as GP. cbn [app] in GP. rewrite <- GP by (cbn [den ns ds]; rewrite ?Hn', ?Hdd', ?F1, ?F2; now left). apply V'; rewrite ?F1, ?F2; now left. }
      assert (HR : exists r, tbin_num t (el (tv t') []) (direct o) = Ok r /\ pv s (PT r) (fun i => rop o (h i) (h' i))).
      { destruct (Req_EM_T (h' []) 0) as [Z|NZ].
        - destruct Ho as [-> | ->]; [|exfalso; apply (Hd eq_refl []); [rewrite F; now left|auto]]. cbn [direct]. rewrite Ev, Z, tbin_mul_zero. exists (tnum 0). split; [reflexivity|].
          cbn [pv]. rewrite F1, F2. split; [constructor; cbn; auto; repeat constructor|]. repeat (split; [reflexivity|]). intros n d [<-|[]] [<-|[]]. cbn. rewrite Z. ring.
        - destruct (tbin_mul_num t (el (tv t') []) (direct o) W) as (r & Er & Wr & De); [destruct Ho as [-> | ->]; auto|congruence|].
          exists r. split; [exact Er|]. apply (pv_den s r _ _ Wr De); auto. intros n d In1 In2. cbn [dmap at_]. rewrite (pv_at s t h n d H) by auto.
          rewrite F1 in In1. rewrite F2 in In2. destruct In1 as [<-|[]], In2 as [<-|[]]. cbn [app]. rewrite Ev. destruct Ho as [-> | ->]; reflexivity. }
      destruct HR as (r & Er & Pr). rewrite Er. exists (PT r). split; [reflexivity|]. split; [exact Pr|reflexivity].
    + assert (EF : forall f, nth f (sN t) 1%nat = nth f (sN t') 1%nat) by (intros f; congruence).
      assert (EX : forall u, wf u -> xd u = 0%nat -> yd u = 0%nat -> sX u = [] /\ sY u = []).
      { intros u Wu A B. pose proof (wf_groups u Wu) as G. split; apply length_zero_iff_nil; [rewrite (g_x _ _ _ _ _ G)|rewrite (g_y _ _ _ _ _ G)]; auto. }
      destruct (EX t W X0 Y0) as [E1 E2]. destruct (EX t' W' X0' Y0') as [E1' E2'].
      destruct (tmul_ok t t' (direct o) W W' (plain_feat t W Hx Hy) (plain_feat t' W' Hx' Hy')) as (r & Er & Wr & _ & De).
      * constructor; rewrite ?E1, ?E2, ?E1', ?E2', ?Mx, ?My, ?Mx', ?My'; try (now left); try (intros f []).
        -- rewrite Hn, Hn'. apply bok_refl. -- rewrite Hdd, Hdd'. apply bok_refl.
      * rewrite Sh, Hn, Hdd, <- Hn', <- Hdd', <- Sh'. discriminate.
      * left. congruence. * left. congruence.
      * destruct Ho as [-> | ->]; [now left|right; left; auto].
      * rewrite Er. exists (PT r). split; [reflexivity|]. split; [|reflexivity].
        apply (pv_den s r _ _ Wr De); cbn [dbin xs ys ns ds]; rewrite ?Hx, ?Hy, ?Hx', ?Hy'; auto.
        -- cbn [den ns]. rewrite Hn, Hn'. apply bmax_idem. -- cbn [den ds]. rewrite Hdd, Hdd'. apply bmax_idem.
        -- intros n d In1 In2. cbn [dbin at_]. rewrite V, V' by auto. destruct Ho as [-> | ->]; reflexivity.
Qed.
Lemma pv_sq s p h : pv s p h -> exists p', py_sq p = Ok p' /\ pv s p' (fun i => h i ^ 2) /\ kind p' = kind p.
Proof.
  intros H. destruct p as [c|a|t|g]; [| | |destruct H]; cbn [py_sq].
  - destruct H as [F H]. eexists; split; [reflexivity|]; split; [|reflexivity]; cbn [pv]; now rewrite H.
  - destruct H as (H1 & H2 & H3). eexists; split; [reflexivity|]; split; [|reflexivity]; cbn [pv np_map shp el]. repeat split; auto. intros i Hi. now rewrite H3.
  - pose proof H as (W & Hx & Hy & Hn & Hd' & V). destruct (tpow_ok t 2 W) as (r & Er & Wr & De); [left; lia|]. rewrite Er. exists (PT r). split; [reflexivity|]. split; [|reflexivity].
    apply (pv_den s r _ _ Wr De); auto. intros n d In1 In2. cbn [dmap at_]. now rewrite (pv_at s t h n d H) by auto.
Qed.
(** Tensor(v) *)
Lemma pv_tensor s p h : posl (flat s) -> pv s p h -> exists t, as_tensor p = Ok t /\ pv s (PT t) h /\ dm t = length (snd s).
Proof.
  intros P H. destruct p as [c|a|t|g]; [| | |destruct H]; cbn [as_tensor].
  - destruct H as [F H]. destruct (flat_nil s F) as [F1 F2]. exists (tnum c). split; [reflexivity|]. split; [|now rewrite F2].
    cbn [pv]. rewrite F1, F2. split; [constructor; cbn; auto; repeat constructor|]. repeat (split; [reflexivity|]). intros n d [<-|[]] [<-|[]]. cbn. rewrite H. ring.
  - destruct H as (H1 & H2 & H3). rewrite arrT_eq. exists (arrT a). assert (P1 : posl (fst s)) by (unfold flat in P; now rewrite H1, app_nil_r in P). split; [reflexivity|]. split; [|now rewrite H1].
    apply (pv_den s (arrT a) _ _ (arrT_wf a ltac:(now rewrite H2)) (arrT_den a)); auto. cbn [vden at_]. intros n d In1 In2. rewrite H1 in In2. destruct In2 as [<-|[]]. rewrite app_nil_r.
    apply H3. unfold flat. now rewrite H1, app_nil_r.
  - pose proof H as (W & Hx & Hy & Hn & Hd' & V). destruct (plain_facts t W Hx Hy) as (X0 & Y0 & Mx & My & Sh). rewrite X0, Y0. cbn [Nat.eqb andb].
    destruct (retensor t (tv t) W eq_refl) as (r & Er & Wr & R1 & R2 & R3 & R4 & R5 & R6 & R7 & _). rewrite X0, Y0, Mx, My in Er. rewrite Er. exists r. split; [reflexivity|].
    assert (r = t) as ->. { clear - R1 R2 R3 R4 R5 R6 R7. destruct r as [r1 r2 r3 r4 r5 r6 r7], t as [t1 t2 t3 t4 t5 t6 t7]; cbn in *. now subst. } split; [exact H|]. cbn [den ds] in Hd'. rewrite <- (g_d _ _ _ _ _ (wf_groups t W)). now rewrite Hd'.
Qed.
End ex.
