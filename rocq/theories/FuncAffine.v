(** Affine and Sum keep derivatives right. *)
From Verif Require Import Prelude DenseModel FuncModel AnalyticSpec FuncSpec DenseProofs FuncLemmas.
From Coquelicot Require Import Coquelicot.
From Coq Require Import Reals Lra.
Import List ListNotations.
Open Scope R_scope.

Lemma rmapM_app {A B} (f : A -> res B) l l' r r' :
  rmapM f l = Ok r -> rmapM f l' = Ok r' -> rmapM f (l ++ l') = Ok (r ++ r').
Proof.
  revert r; induction l as [|a l IH]; cbn; intros r H H'.
  - injection H as <-; auto.
  - destruct (f a); cbn in *; [|discriminate]. destruct (rmapM f l) as [l0|]; cbn in *; [|discriminate].
    injection H as <-. now rewrite (IH l0).
Qed.

(** reading the pieces of [wellformed] through [val] *)
Section Read.
Context {ss : list pst} {out : pst} {f : sfun} (W : wellformed ss out f).
Lemma call_ok ps : has_sts ps ss -> f_call f ps = Ok (val (f_call f ps)).
Proof. intros H. destruct (wf_call _ _ _ W ps H) as (v & -> & _); reflexivity. Qed.
Lemma call_st ps : has_sts ps ss -> has_st (val (f_call f ps)) out.
Proof. intros H. destruct (wf_call _ _ _ W ps H) as (v & -> & ?); auto. Qed.
Lemma grad_ok ps i : has_sts ps ss -> (i < length ss)%nat -> f_grad f ps i = Ok (val (f_grad f ps i)).
Proof. intros H Hi. destruct (wf_grad _ _ _ W ps i H Hi) as (v & -> & _); reflexivity. Qed.
Lemma grad_tst ps i : has_sts ps ss -> (i < length ss)%nat ->
  tst (flat (nth i ss ([], []))) [] out (val (f_grad f ps i)).
Proof. intros H Hi. destruct (wf_grad _ _ _ W ps i H Hi) as (v & -> & ?); auto. Qed.
Lemma hess_ok ps i j : has_sts ps ss -> (i < length ss)%nat -> (j <= i)%nat ->
  f_hess f ps i j = Ok (val (f_hess f ps i j)).
Proof. intros H Hi Hj. destruct (wf_hess _ _ _ W ps i j H Hi Hj) as (v & -> & _); reflexivity. Qed.
Lemma hess_tst ps i j : has_sts ps ss -> (i < length ss)%nat -> (j <= i)%nat ->
  tst (flat (nth i ss ([], []))) (flat (nth j ss ([], []))) out (val (f_hess f ps i j)).
Proof. intros H Hi Hj. destruct (wf_hess _ _ _ W ps i j H Hi Hj) as (v & -> & ?); auto. Qed.
End Read.

Lemma pairing_ext ss G G' v :
  (forall i x, (i < length ss)%nat -> In x (indices (flat (nth i ss ([], [])))) -> G i x = G' i x) ->
  pairing ss G v = pairing ss G' v.
Proof.
  intros H. unfold pairing. apply Rsum_ext; intros i Hi. apply in_seq in Hi.
  apply Rsum_ext; intros x Hx. rewrite H; auto; lia.
Qed.
Lemma pairing_scal ss c G v : pairing ss (fun i x => c * G i x) v = c * pairing ss G v.
Proof.
  unfold pairing. rewrite <- Rsum_scal. apply Rsum_ext; intros i _.
  rewrite <- Rsum_scal. apply Rsum_ext; intros; ring.
Qed.
Lemma pairing_plus ss G H v : pairing ss (fun i x => G i x + H i x) v = pairing ss G v + pairing ss H v.
Proof.
  unfold pairing. rewrite <- Rsum_plus. apply Rsum_ext; intros i _.
  rewrite <- Rsum_plus. apply Rsum_ext; intros; ring.
Qed.
Lemma pairing_zero ss v : pairing ss (fun _ _ => 0) v = 0.
Proof. unfold pairing. apply Rsum_zero; intros; apply Rsum_zero; intros; ring. Qed.
Lemma pairing_Rsum {A} ss (F : A -> nat -> idx -> R) (l : list A) v :
  pairing ss (fun i x => Rsum (fun a => F a i x) l) v = Rsum (fun a => pairing ss (F a) v) l.
Proof.
  induction l as [|a l IH].
  - rewrite Rsum_nil. apply pairing_zero.
  - rewrite Rsum_cons, <- IH, <- pairing_plus. apply pairing_ext; intros. now rewrite Rsum_cons.
Qed.

Section Affine.
Context (ss : list pst) (out : pst) (f : sfun) (a b : R).
Notation F := (s_affine f a b).

Lemma affine_call ps : wellformed ss out f -> has_sts ps ss ->
  f_call F ps = Ok (dshift (dscal a (val (f_call f ps))) b).
Proof. intros W H. cbn. now rewrite (call_ok W) by auto. Qed.
Lemma affine_grad ps i : wellformed ss out f -> has_sts ps ss -> (i < length ss)%nat ->
  exists g, f_grad F ps i = Ok g /\ tst (flat (nth i ss ([],[]))) [] out g /\
            deq g (dscal a (val (f_grad f ps i))).
Proof.
  intros W H Hi. cbn. destruct (f_nullg f) eqn:E.
  - exists dzero. split; [auto|]. split; [apply tst_zero|].
    apply nil_deq; [apply isnil_zero|]. apply isnil_dscal. now apply (wf_nullg _ _ _ W).
  - rewrite (grad_ok W) by auto. cbn. eexists; split; [reflexivity|]. split; [|apply deq_refl].
    apply tst_dscal. now apply (grad_tst W).
Qed.
Lemma affine_hess ps i j : wellformed ss out f -> has_sts ps ss -> (i < length ss)%nat -> (j <= i)%nat ->
  exists g, f_hess F ps i j = Ok g /\ tst (flat (nth i ss ([],[]))) (flat (nth j ss ([],[]))) out g /\
            deq g (dscal a (val (f_hess f ps i j))).
Proof.
  intros W H Hi Hj. cbn. destruct (f_nullh f) eqn:E.
  - exists dzero. split; [auto|]. split; [apply tst_zero|].
    apply nil_deq; [apply isnil_zero|]. apply isnil_dscal. now apply (wf_nullh _ _ _ W).
  - rewrite (hess_ok W) by auto. cbn. eexists; split; [reflexivity|]. split; [|apply deq_refl].
    apply tst_dscal. now apply (hess_tst W).
Qed.

Lemma affine_wf : wellformed ss out f -> wellformed ss out F.
Proof.
  intros W. constructor.
  - intros ps H. rewrite (affine_call ps W H). eexists; split; [reflexivity|].
    destruct (call_st W ps H) as (? & ? & ? & ?). repeat split; auto.
  - intros ps i H Hi. destruct (affine_grad ps i W H Hi) as (g & E & T & _); eauto.
  - intros ps i j H Hi Hj. destruct (affine_hess ps i j W H Hi Hj) as (g & E & T & _); eauto.
  - intros ps ps' H H' E. destruct (wf_ext _ _ _ W ps ps' H H' E) as (E1 & E2 & E3).
    split; [|split].
    + rewrite !affine_call by auto. cbn. apply deq_dshift, deq_dscal, E1.
    + intros i Hi. destruct (affine_grad ps i W H Hi) as (g & -> & _ & Q),
        (affine_grad ps' i W H' Hi) as (g' & -> & _ & Q'). cbn.
      eapply deq_trans; [exact Q|]. eapply deq_trans; [|apply deq_sym, Q']. now apply deq_dscal, E2.
    + intros i j Hi Hj. destruct (affine_hess ps i j W H Hi Hj) as (g & -> & _ & Q),
        (affine_hess ps' i j W H' Hi Hj) as (g' & -> & _ & Q'). cbn.
      eapply deq_trans; [exact Q|]. eapply deq_trans; [|apply deq_sym, Q']. now apply deq_dscal, E3.
  - cbn. intros E ps i H. rewrite E. apply isnil_zero.
  - cbn. intros E ps i j H. rewrite E. apply isnil_zero.
  - cbn. intros E ps i j H. destruct (f_nullh f); [apply isnil_zero|].
    pose proof (wf_nullgh _ _ _ W E ps i j H) as N. destruct (f_hess f ps i j); cbn in *; [now apply isnil_dscal|apply isnil_zero].
Qed.

Lemma affine_hess_at ps i j x y n d : wellformed ss out f -> has_sts ps ss ->
  (i < length ss)%nat -> (j < length ss)%nat ->
  hess_at F ps i j x y n d = a * hess_at f ps i j x y n d.
Proof.
  intros W H Hi Hj. unfold hess_at. destruct (Nat.leb_spec j i).
  - destruct (affine_hess ps i j W H Hi) as (g & -> & _ & Q); [lia|]. cbn [val]. rewrite Q. apply get_dscal.
  - destruct (affine_hess ps j i W H Hj) as (g & -> & _ & Q); [lia|]. cbn [val]. rewrite Q. apply get_dscal.
Qed.

Lemma affine_correct D : correct ss out D f -> correct ss out D F.
Proof.
  intros [W G H S]. constructor.
  - now apply affine_wf.
  - intros c v t Hc HD n d Hn Hd.
    eapply is_derive_ext with (f := fun s => a * get (val (f_call f (c s))) [] [] n d + b).
    { intros s. rewrite (affine_call _ W) by apply Hc. reflexivity. }
    eapply is_derive_eq; [apply D_plus; [apply D_scal, (G c v t Hc HD n d Hn Hd)|apply D_const]|].
    rewrite Rplus_0_r, <- pairing_scal. apply pairing_ext. intros i x Hi Hx.
    destruct (affine_grad (c t) i W) as (g & -> & _ & Q); [apply Hc|auto|]. cbn [val]. now rewrite Q.
  - intros c v t Hc HD i x n d Hi Hx Hn Hd.
    eapply is_derive_ext with (f := fun s => a * get (val (f_grad f (c s) i)) x [] n d).
    { intros s. destruct (affine_grad (c s) i W) as (g & -> & _ & Q); [apply Hc|auto|]. cbn [val]. now rewrite Q. }
    eapply is_derive_eq; [apply D_scal, (H c v t Hc HD i x n d Hi Hx Hn Hd)|].
    rewrite <- pairing_scal. apply pairing_ext. intros j y Hj Hy.
    rewrite affine_hess_at; auto. apply Hc.
  - intros ps i H' Hi x y n d.
    destruct (affine_hess ps i i W H' Hi) as (g & -> & _ & Q); [lia|]. cbn [val].
    rewrite get_dtrans, !Q, !get_dscal. f_equal. now apply S.
Qed.

Lemma affine_both : wellformed ss out f -> hess_both ss out f -> hess_both ss out F.
Proof.
  intros W B ps i j H Hij Hj. destruct (B ps i j H Hij Hj) as (h & E & T & Q).
  destruct (affine_hess ps j i W H Hj) as (g & Eg & _ & Qg); [lia|]. rewrite Eg; cbn [val].
  cbn. destruct (f_nullh f) eqn:N.
  - exists dzero; split; [auto|]. split; [apply tst_zero|].
    cbn in Eg; rewrite N in Eg; injection Eg as <-. apply deq_refl.
  - rewrite E. cbn. eexists; split; [reflexivity|]. split; [now apply tst_dscal|].
    intros x y n d. rewrite get_dscal, Q, !get_dtrans, Qg. reflexivity.
Qed.

Lemma affine_eval : wellformed ss out f -> eval_agrees ss out f -> eval_agrees ss out F.
Proof.
  intros W E ps H. destruct (E ps H) as (v & gs & hs & Ee & Hv & Qv & Lg & Lh & R).
  exists (dshift (dscal a v) b), (map (dscal a) gs), (map (map (dscal a)) hs).
  split; [cbn; now rewrite Ee|]. split; [destruct Hv as (? & ? & ? & ?); repeat split; auto|].
  split; [rewrite (affine_call _ W) by auto; apply deq_dshift, deq_dscal, Qv|].
  split; [now rewrite map_length|]. split; [now rewrite map_length|].
  intros i Hi. destruct (R i Hi) as (R1 & R2 & R3 & R4).
  rewrite nth_indep with (l := map (dscal a) gs) (d' := dscal a dzero) by (rewrite map_length; lia). rewrite map_nth.
  change (@nil dt) with (map (dscal a) []). rewrite map_nth, map_length.
  destruct (affine_grad ps i W H Hi) as (g & -> & _ & Q). cbn [val].
  split; [now apply tst_dscal|]. split.
  { eapply deq_trans; [|apply deq_sym, Q]. now apply deq_dscal. }
  split; auto. intros j Hj. destruct (R4 j Hj) as (S1 & S2).
  change (map (dscal a) []) with (@nil dt).
  rewrite nth_indep with (l := map (dscal a) _) (d' := dscal a dzero) by (rewrite map_length; lia). rewrite map_nth.
  destruct (affine_hess ps i j W H Hi Hj) as (h & -> & _ & Q'). cbn [val].
  split; [now apply tst_dscal|]. eapply deq_trans; [|apply deq_sym, Q']. now apply deq_dscal.
Qed.
End Affine.
