(** Collapse: correct when the gradients and Hessians of the collapsed function
    carry the summed axes in full (or vanish). *)
From Verif Require Import Prelude DenseModel FuncModel AnalyticSpec FuncSpec DenseProofs FuncLemmas FuncAffine.
From Coquelicot Require Import Coquelicot.
From Coq Require Import Reals Lra.
Import List ListNotations.
Open Scope R_scope.

(** The axes that are summed are present in full. *)
Definition full (sv sd : bool) (out : pst) (t : dt) : Prop :=
  isnil t \/ ((sv = true -> ns t = fst out) /\ (sd = true -> ds t = snd out)).
Definition keeps_axes (sv sd : bool) (ss : list pst) (out : pst) (f : sfun) : Prop :=
  forall ps, has_sts ps ss ->
    (forall i, (i < length ss)%nat -> full sv sd out (val (f_grad f ps i))) /\
    (forall i j, (i < length ss)%nat -> (j < length ss)%nat -> full sv sd out (val (f_hess f ps i j))).
Definition c_out (sv sd : bool) (out : pst) : pst :=
  (if sv then [] else fst out, if sd then [] else snd out).

Lemma get_dsum_axes a sv sd x y n d :
  get (dsum_axes a sv sd) x y n d =
  Rsum (fun n' => Rsum (fun d' => get a x y n' d') (if sd then indices (ds a) else (d :: nil)))
       (if sv then indices (ns a) else (n :: nil)).
Proof.
  unfold get at 1. cbn [dsum_axes xs ys ns ds at_]. rewrite sumR_map.
  assert (G : forall (L1 L2 : list idx) (F : idx -> idx -> R), Rsum (fun p : idx * idx => let '(n', d') := p in F n' d') (list_prod L1 L2)
     = Rsum (fun n' => Rsum (F n') L2) L1).
  { intros L1 L2 F. induction L1 as [|a1 L1 IH]; [reflexivity|]. cbn [list_prod]. rewrite Rsum_app, Rsum_cons, IH, Rsum_map. reflexivity. }
  rewrite (G _ _ (fun n' d' => at_ a (clamp (xs a) x) (clamp (ys a) y) n' d')).
  assert (G1 : forall n1 n2, clamp (ns a) n1 = n2 ->
     Rsum (fun d' => at_ a (clamp (xs a) x) (clamp (ys a) y) n2 d') (if sd then indices (ds a) else (clamp (if sd then [] else ds a) d :: nil))
     = Rsum (fun d' => get a x y n1 d') (if sd then indices (ds a) else (d :: nil))).
  { intros n1 n2 <-. destruct sd.
    - apply Rsum_ext. intros d' Hd. unfold get. now rewrite (clamp_in (ds a) d').
    - rewrite !Rsum_cons, !Rsum_nil. reflexivity. }
  destruct sv.
  - apply Rsum_ext. intros n' Hn. apply G1. now apply clamp_in.
  - rewrite !Rsum_cons, !Rsum_nil. f_equal. now apply G1.
Qed.

Lemma isnil_dsum_axes a sv sd : isnil a -> isnil (dsum_axes a sv sd).
Proof. intros H x y n d. rewrite get_dsum_axes. apply Rsum_zero; intros; apply Rsum_zero; intros; apply H. Qed.

(** reading with the axes of [out] *)
Definition colsum (sv sd : bool) (out : pst) (G : idx -> idx -> R) (n d : idx) : R :=
  Rsum (fun n' => Rsum (fun d' => G n' d') (if sd then indices (snd out) else (d :: nil)))
       (if sv then indices (fst out) else (n :: nil)).
Lemma colsum_ext sv sd out (G G' : list nat -> list nat -> R) n d : (forall a b, G a b = G' a b) -> colsum sv sd out G n d = colsum sv sd out G' n d.
Proof. intros H. apply Rsum_ext; intros; apply Rsum_ext; auto. Qed.
Lemma colsum_zero sv sd out G n d : (forall a b, G a b = 0) -> colsum sv sd out G n d = 0.
Proof. intros H. apply Rsum_zero; intros; apply Rsum_zero; auto. Qed.
Lemma get_full sv sd out t x y n d : full sv sd out t ->
  get (dsum_axes t sv sd) x y n d = colsum sv sd out (get t x y) n d.
Proof.
  intros [N|[E1 E2]].
  - rewrite (isnil_dsum_axes _ sv sd N). symmetry. apply colsum_zero. intros; apply N.
  - rewrite get_dsum_axes. unfold colsum. destruct sv, sd; rewrite ?E1, ?E2; auto.
Qed.
Lemma tst_dsum_axes sv sd sx sy out t : tst sx sy out t -> tst sx sy (c_out sv sd out) (dsum_axes t sv sd).
Proof.
  intros (A1 & A2 & A3 & A4 & A5). unfold tst, c_out. cbn [dsum_axes xs ys ns ds fst snd]. split; [auto|]. split; [auto|].
  split; [destruct sv; [left|]; auto|]. split; [destruct sd; [left|]; auto|].
  destruct A5 as [N|(B1 & B2 & B3 & B4)]; [left; now apply isnil_dsum_axes|right].
  split; [auto|]. split; [auto|]. split; [destruct sv|destruct sd]; auto.
Qed.

Lemma pairing_colsum ss sv sd out (G : nat -> idx -> idx -> idx -> R) n d v :
  pairing ss (fun i x => colsum sv sd out (G i x) n d) v =
  colsum sv sd out (fun a b => pairing ss (fun i x => G i x a b) v) n d.
Proof.
  unfold colsum. rewrite (pairing_Rsum ss (fun (n' : list nat) i x => Rsum (fun d' => G i x n' d') (if sd then indices (snd out) else (d :: nil)))).
  apply Rsum_ext. intros n' _. apply (pairing_Rsum ss (fun (d' : list nat) i x => G i x n' d')).
Qed.
Lemma D_colsum (sv sd : bool) (out : pst) (F : R -> list nat -> list nat -> R) (dF : list nat -> list nat -> R) (n d : list nat) (t : R) :
  (forall a b, In a (if sv then indices (fst out) else (n :: nil)) -> In b (if sd then indices (snd out) else (d :: nil)) ->
     is_derive (fun s => F s a b) t (dF a b)) ->
  is_derive (fun s => colsum sv sd out (F s) n d) t (colsum sv sd out dF n d).
Proof. intros H. unfold colsum. apply is_derive_Rsum. intros a Ha. apply is_derive_Rsum. intros b Hb. now apply H. Qed.

Section Collapse.
Context (ss : list pst) (out : pst) (f : sfun) (sv sd : bool).
Notation F := (s_collapse f sv sd).
Notation co := (c_out sv sd out).
Context (W : wellformed ss out f) (K : keeps_axes sv sd ss out f).

Lemma col_call ps : has_sts ps ss -> f_call F ps = Ok (dsum_axes (val (f_call f ps)) sv sd).
Proof. intros H. cbn. now rewrite (call_ok W) by auto. Qed.
Lemma col_grad ps i : has_sts ps ss -> (i < length ss)%nat -> f_grad F ps i = Ok (dsum_axes (val (f_grad f ps i)) sv sd).
Proof. intros H Hi. cbn. now rewrite (grad_ok W) by auto. Qed.
Lemma col_hess ps i j : has_sts ps ss -> (i < length ss)%nat -> (j <= i)%nat -> f_hess F ps i j = Ok (dsum_axes (val (f_hess f ps i j)) sv sd).
Proof. intros H Hi Hj. cbn. now rewrite (hess_ok W) by auto. Qed.
Lemma call_full ps : has_sts ps ss -> full sv sd out (val (f_call f ps)).
Proof. intros H. right. destruct (call_st W ps H) as (_ & _ & E1 & E2). auto. Qed.

Lemma collapse_wf : wellformed ss co F.
Proof.
  constructor.
  - intros ps H. rewrite col_call by auto. eexists; split; [reflexivity|].
    destruct (call_st W ps H) as (E1 & E2 & E3 & E4). unfold has_st, c_out. cbn [dsum_axes xs ys ns ds fst snd].
    rewrite E1, E2, E3, E4. auto.
  - intros ps i H Hi. rewrite col_grad by auto. eexists; split; [reflexivity|]. apply tst_dsum_axes. now apply (grad_tst W).
  - intros ps i j H Hi Hj. rewrite col_hess by auto. eexists; split; [reflexivity|]. apply tst_dsum_axes. now apply (hess_tst W).
  - intros ps ps' H H' E. destruct (wf_ext _ _ _ W ps ps' H H' E) as (E1 & E2 & E3).
    destruct (K ps H) as [K1 K2], (K ps' H') as [K1' K2']. split; [|split].
    + rewrite !col_call by auto. intros x y n d. cbn [val]. rewrite !(get_full _ _ out) by now apply call_full.
      apply colsum_ext. intros; apply E1.
    + intros i Hi x y n d. rewrite !col_grad by auto. cbn [val]. rewrite !(get_full _ _ out) by auto.
      apply colsum_ext. intros; now apply E2.
    + intros i j Hi Hj x y n d. rewrite !col_hess by auto. cbn [val]. rewrite !(get_full _ _ out) by (try apply K2; try apply K2'; auto; lia).
      apply colsum_ext. intros; now apply E3.
  - cbn; discriminate.
  - cbn; discriminate.
  - cbn; discriminate.
Qed.

Lemma col_hess_at ps i j x y n d : has_sts ps ss -> (i < length ss)%nat -> (j < length ss)%nat ->
  hess_at F ps i j x y n d = colsum sv sd out (hess_at f ps i j x y) n d.
Proof.
  intros H Hi Hj. destruct (K ps H) as [K1 K2]. unfold hess_at. destruct (Nat.leb_spec j i).
  - rewrite col_hess by (auto; lia). cbn [val]. now apply get_full, K2.
  - rewrite col_hess by (auto; lia). cbn [val]. now apply get_full, K2.
Qed.

Lemma in_co n d a b : In n (indices (fst co)) -> In d (indices (snd co)) ->
  In a (if sv then indices (fst out) else (n :: nil)) -> In b (if sd then indices (snd out) else (d :: nil)) ->
  In a (indices (fst out)) /\ In b (indices (snd out)).
Proof.
  intros Hn Hd Ha Hb. cbn [c_out fst snd] in *. split.
  - destruct sv; auto. destruct Ha as [<-|[]]; auto.
  - destruct sd; auto. destruct Hb as [<-|[]]; auto.
Qed.

Lemma collapse_correct D : correct ss out D f -> correct ss co D F.
Proof.
  intros [_ G H S]. constructor.
  - exact collapse_wf.
  - intros c v t Hc HD n d Hn Hd. pose proof Hc as [St _].
    eapply is_derive_ext with (f := fun s => colsum sv sd out (get (val (f_call f (c s))) [] []) n d).
    { intros s. rewrite col_call by apply Hc. cbn [val]. symmetry. apply get_full. apply call_full, Hc. }
    eapply is_derive_eq.
    + apply D_colsum with (dF := fun a b => pairing ss (fun i x => get (val (f_grad f (c t) i)) x [] a b) v).
      intros a b Ha Hb. destruct (in_co n d a b Hn Hd Ha Hb). now apply G.
    + rewrite <- (pairing_colsum ss sv sd out (fun i x a b => get (val (f_grad f (c t) i)) x [] a b)).
      apply pairing_ext. intros i x Hi Hx. rewrite col_grad by auto. cbn [val]. symmetry. apply get_full. now apply K.
  - intros c v t Hc HD i x n d Hi Hx Hn Hd. pose proof Hc as [St _].
    eapply is_derive_ext with (f := fun s => colsum sv sd out (get (val (f_grad f (c s) i)) x []) n d).
    { intros s. rewrite col_grad by (auto; apply Hc). cbn [val]. symmetry. apply get_full. now apply K. }
    eapply is_derive_eq.
    + apply D_colsum with (dF := fun a b => pairing ss (fun j y => hess_at f (c t) i j x y a b) v).
      intros a b Ha Hb. destruct (in_co n d a b Hn Hd Ha Hb). now apply H.
    + rewrite <- (pairing_colsum ss sv sd out (fun j y a b => hess_at f (c t) i j x y a b)).
      apply pairing_ext. intros j y Hj Hy. symmetry. now apply col_hess_at.
  - intros ps i Hp Hi x y n d. rewrite col_hess by auto. cbn [val]. rewrite get_dtrans.
    rewrite !(get_full _ _ out) by now apply K. apply colsum_ext. intros a b.
    rewrite (S ps i Hp Hi x y a b). apply get_dtrans.
Qed.

Lemma collapse_both : hess_both ss out f -> hess_both ss co F.
Proof.
  intros B ps i j H Hij Hj. destruct (B ps i j H Hij Hj) as (h & E & T & Q).
  cbn. rewrite E. cbn [rbind]. eexists; split; [reflexivity|]. split; [now apply tst_dsum_axes|].
  intros x y n d. rewrite get_dtrans. change (let! h := f_hess f ps j i in Ok (dsum_axes h sv sd)) with (f_hess F ps j i).
  rewrite col_hess by (auto; lia). cbn [val]. destruct (K ps H) as [K1 K2].
  pose proof (K2 i j ltac:(lia) Hj) as Ki. rewrite E in Ki. cbn [val] in Ki.
  rewrite !(get_full _ _ out) by (auto; apply K2; lia). apply colsum_ext. intros a b. rewrite Q. apply get_dtrans.
Qed.

(** eval: the tensors in its result must be full as well *)
Lemma collapse_eval : eval_agrees ss out f ->
  (forall ps v gs hs, has_sts ps ss -> f_eval f ps = Ok (v, gs, hs) ->
     (forall i, (i < length ss)%nat -> full sv sd out (nth i gs dzero)) /\
     (forall i j, (i < length ss)%nat -> (j <= i)%nat -> full sv sd out (nth j (nth i hs []) dzero))) ->
  eval_agrees ss co F.
Proof.
  intros E KE ps H. destruct (E ps H) as (v & gs & hs & Ee & Hv & Qv & Lg & Lh & R).
  destruct (KE ps v gs hs H Ee) as [KE1 KE2]. destruct (K ps H) as [K1 K2].
  set (dd := fun g => dsum_axes g sv sd).
  exists (dd v), (map dd gs), (map (map dd) hs).
  assert (Z : deq (dd dzero) dzero) by (intros x y n d; unfold dd; rewrite (isnil_dsum_axes dzero sv sd isnil_zero); reflexivity).
  split; [cbn; now rewrite Ee|].
  split. { destruct Hv as (E1 & E2 & E3 & E4). unfold has_st, c_out, dd. cbn [dsum_axes xs ys ns ds fst snd]. rewrite E1, E2, E3, E4; auto. }
  split. { rewrite col_call by auto. intros x y n d. cbn [val]. unfold dd. rewrite !(get_full _ _ out); [|now apply call_full|].
    - apply colsum_ext. intros; apply Qv.
    - right. destruct Hv as (_ & _ & E3 & E4). auto. }
  split; [now rewrite map_length|]. split; [now rewrite map_length|].
  intros i Hi. destruct (R i Hi) as (R1 & R2 & R3 & R4).
  rewrite nth_indep with (l := map dd gs) (d' := dd dzero) by (rewrite map_length; lia). rewrite map_nth.
  change (@nil dt) with (map dd []). rewrite map_nth, map_length. change (map dd []) with (@nil dt).
  split; [now apply tst_dsum_axes|]. split.
  { intros x y n d. rewrite col_grad by auto. cbn [val]. unfold dd. rewrite !(get_full _ _ out) by auto. apply colsum_ext. intros; apply R2. }
  split; auto. intros j Hj. destruct (R4 j Hj) as (S1 & S2).
  rewrite nth_indep with (l := map dd _) (d' := dd dzero) by (rewrite map_length; lia). rewrite map_nth.
  split; [now apply tst_dsum_axes|].
  intros x y n d. rewrite col_hess by auto. cbn [val]. unfold dd. rewrite !(get_full _ _ out) by (auto; apply K2; lia). apply colsum_ext. intros; apply S2.
Qed.
End Collapse.
