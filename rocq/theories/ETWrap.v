(** FuncWrap.eval agrees with the dense function. *)
From Verif Require Import Prelude DenseModel AnalyticSpec DenseProofs NDArray NDProofs TensorModel TensorSpec TensorSpecOps TensorLemmas TensorBasic TensorSum TensorSumMain TensorBin TensorArith TensorShape TensorExpand TensorGeneric TensorGSum TensorDotCore TensorDot TensorUfunc TensorUfuncP FuncModel FuncSpec FTModel FTRep FTRep2 FTRep3 FTVal FTDiag FTRefine FTPrim FTAffine FTWrap FTSum LTModel ETModel ETRefine.
From Verif Require FuncPrim FuncCompose FuncWrapP FuncLemmas FuncAffine FuncSum.
From Coq Require Import Reals Lra Sorted.
Import List ListNotations.
Open Scope R_scope.

Lemma ofold_snoc {A B} (f : B -> A -> res B) l a b : ofold f (l ++ [a]) b = (let! c := ofold f l b in f c a).
Proof. revert b. induction l as [|x l IH]; intros b; cbn [app ofold rbind]. - destruct (f b a); reflexivity. - destruct (f b x); cbn [rbind]; [apply IH|reflexivity]. Qed.

Section ex.
Context {ex : exdims}.
Section Wrap.
Context (ss : list pst) (o : pst) (D : list dt -> Prop) (mf : list nat) (dep : nat -> bool) (col : bool) (w : wmap) (ob : tobj) (sf : sfun).
Hypothesis B : Forall (fun i => i < length ss)%nat (w_pm w).
Hypothesis Wk : FuncLemmas.wmap_ok w o.
Hypothesis W : wellformed (FuncWrapP.ssub ss w) o sf.
Hypothesis So : StronglySorted lt (w_pm w) \/ t_nullh (o_f ob) = true.
Hypothesis Fl : flip_fine w ss o mf dep col (t_nullh (o_f ob)).
Hypothesis R : refines (FuncWrapP.ssub ss w) o D mf dep col (o_f ob) sf.
Hypothesis H : eok (FuncWrapP.ssub ss w) o D mf dep col ob sf.
Notation out := (FuncLemmas.w_out w o).

Lemma FB : Forall (fun k => k < w_nf w)%nat (w_flip w).
Proof. destruct Fl as [-> | (HF & _)]; [constructor|exact HF]. Qed.
Lemma FA : forall k, In k (w_flip w) -> ~ In k (wmf w mf).
Proof. destruct Fl as [-> | (_ & HF & _)]; [intros k []|exact HF]. Qed.

Section At.
Context (ps : list pval) (qs : list dt) (v : pval) (fg : list pval) (fh : list (list pval)).
Hypothesis Pp : prms ss ps qs.
Hypothesis Er : eres (FuncWrapP.ssub ss w) o mf dep col sf (FuncWrapP.psub w qs) (v, fg, fh).
Notation Hs := (proj1 (proj2 Pp)).

Lemma wv : exists u, tw_expand w v = Ok u /\ vrel (colw col o) out u (val (f_call (s_wrap w sf) qs)).
Proof.
  rewrite (FuncWrapP.wrap_call_ok ss o w sf B W qs Hs). cbn [val]. destruct Er as (V & _). apply (vwexpand col o w v _ Wk FB); auto.
  - destruct Fl as [F | (_ & _ & F & _)]; auto.
  - exact (FuncAffine.call_st W _ (proj1 (proj2 (prms_sub w ss ps qs B Pp)))).
Qed.
Lemma wg_some i k : (i < length ss)%nat -> index_of i (w_pm w) = Some k -> exists g u, rnth fg k = Ok g /\ tw_expand w g = Ok u /\
  rep (wdep w dep i) (Qm (wmf w mf)) (gsh (nth i ss ([], [])) out) u (get (val (f_grad (s_wrap w sf) qs i))).
Proof.
  intros Hi Ek. destruct Er as (_ & Lg & _ & G & _). destruct (FuncWrapP.idx_lt ss w i k Ek) as [Hk Sk]. exists (nth k fg tzero). specialize (G k Hk). rewrite Sk in G. unfold gsh in G.
  assert (Zf : w_flip w = [] \/ dep k = true) by (destruct Fl as [F | (_ & _ & _ & _ & F)]; [now left|right; apply F; unfold FuncWrapP.ssub in Hk; now rewrite map_length in Hk]).
  destruct (rwexpand (dep k) mf _ [] o w (nth k fg tzero) _ Wk FB FA Zf G) as (u & Eu & U). exists u. split; [apply rnth_nth; lia|]. split; [exact Eu|].
  destruct (FuncWrapP.wrap_grad_ok ss o w sf B Wk W qs i Hs Hi) as (g & -> & _ & Dg). cbn [val]. unfold wdep. rewrite Ek. unfold FuncWrapP.wgrad in Dg. rewrite Ek in Dg.
  unfold wsh in U. unfold gsh. eapply rep_ext; [exact U|]. intros x y n e _. rewrite (Dg x y n e). unfold wT.
  pose proof (FuncAffine.grad_tst W _ k (proj1 (proj2 (prms_sub w ss ps qs B Pp))) Hk) as (_ & _ & T1 & T2 & _). now rewrite (FuncLemmas.w_expand_norm w o _ x y n e Wk T1 T2).
Qed.
Lemma wg_none i : (i < length ss)%nat -> index_of i (w_pm w) = None -> rep (wdep w dep i) (Qm (wmf w mf)) (gsh (nth i ss ([], [])) out) tzero (get (val (f_grad (s_wrap w sf) qs i))).
Proof.
  intros Hi Ek. destruct (FuncWrapP.wrap_grad_ok ss o w sf B Wk W qs i Hs Hi) as (g & -> & _ & Dg). cbn [val]. unfold wdep. rewrite Ek. unfold FuncWrapP.wgrad in Dg. rewrite Ek in Dg.
  apply rep_tzero. intros x y n e _. now rewrite (Dg x y n e).
Qed.
Lemma wh_ok i j : StronglySorted lt (w_pm w) -> w_flip w = [] -> (i < length ss)%nat -> (j <= i)%nat ->
  match index_of i (w_pm w), index_of j (w_pm w) with
  | Some k, Some l => exists h u, rnth2 fh k l = Ok h /\ tw_expand w h = Ok u /\
      rep false (Qm (wmf w mf)) (hsh (nth i ss ([], [])) (nth j ss ([], [])) out) u (get (val (f_hess (s_wrap w sf) qs i j)))
  | _, _ => rep false (Qm (wmf w mf)) (hsh (nth i ss ([], [])) (nth j ss ([], [])) out) tzero (get (val (f_hess (s_wrap w sf) qs i j)))
  end.
Proof.
  intros Ss Ff Hi Hj. destruct (FuncWrapP.wrap_hess_ok ss o w sf B Wk W qs i j (or_introl Ss) Hs Hi Hj) as (h & Eh & _ & Dh). rewrite Eh. cbn [val].
  destruct (index_of i (w_pm w)) as [k|] eqn:Ek; [destruct (index_of j (w_pm w)) as [l|] eqn:El|].
  - destruct (FuncWrapP.idx_lt ss w i k Ek) as [Hk Sk]. destruct (FuncWrapP.idx_lt ss w j l El) as [Hl Sl]. pose proof (FuncWrapP.sorted_index (w_pm w) i j k l Ss Ek El Hj) as Hlk.
    destruct Er as (_ & _ & Lh & _ & G). destruct (G k Hk) as [Lr Gr]. specialize (Gr l Hlk). rewrite Sk, Sl in Gr. unfold hsh in Gr.
    exists (nth l (nth k fh []) tzero). destruct (rwexpand false mf _ _ o w _ _ Wk FB FA (or_introl Ff) Gr) as (u & Eu & U). exists u. split; [apply rnth2_nth; lia|]. split; [exact Eu|]. unfold wsh in U. unfold hsh. eapply rep_ext; [exact U|].
    intros x y n e _. rewrite Dh. unfold wT, hess_at. destruct (Nat.leb_spec l k); [reflexivity|lia].
  - apply rep_tzero. intros x y n e _. now rewrite Dh.
  - apply rep_tzero. intros x y n e _. now rewrite Dh.
Qed.
(** the loop of the class method *)
Definition idxs (m : nat) : list (option nat) := map (fun i => index_of i (w_pm w)) (seq 0 m).
Lemma idxs_nth m j : (j < m)%nat -> rnth (idxs m) j = Ok (index_of j (w_pm w)).
Proof.
  intros Hj. unfold rnth, idxs. rewrite (nth_error_nth' _ None) by (now rewrite map_length, seq_length). rewrite (nth_indep _ None (index_of 0 (w_pm w))) by (now rewrite map_length, seq_length).
  rewrite (map_nth (fun i => index_of i (w_pm w)) (seq 0 m) 0%nat j), seq_nth by exact Hj. reflexivity.
Qed.
Definition rowP (i : nat) (row : list pval) : Prop := length row = Datatypes.S i /\
  forall j, (j <= i)%nat -> rep false (Qm (wmf w mf)) (hsh (nth i ss ([], [])) (nth j ss ([], [])) out) (nth j row tzero) (get (val (f_hess (s_wrap w sf) qs i j))).
Lemma wrow_ok i k : StronglySorted lt (w_pm w) -> w_flip w = [] -> (i < length ss)%nat -> index_of i (w_pm w) = Some k -> exists row, wrow w fh (idxs i) i k = Ok row /\ rowP i row.
Proof.
  intros Ss Ff Hi Ek. unfold wrow.
  destruct (rmapM_seq (fun j => let! l := rnth (idxs i) j in match l with None => Ok tzero | Some l => let! h := rnth2 fh k l in tw_expand w h end)
    (fun j u => rep false (Qm (wmf w mf)) (hsh (nth i ss ([], [])) (nth j ss ([], [])) out) u (get (val (f_hess (s_wrap w sf) qs i j)))) tzero i) as (line & El & Ll & Vl).
  { intros j Hj. rewrite idxs_nth by exact Hj. cbn [rbind]. pose proof (wh_ok i j Ss Ff Hi ltac:(lia)) as X. rewrite Ek in X. destruct (index_of j (w_pm w)) as [l|].
    - destruct X as (h & u & Eh & Eu & U). rewrite Eh. cbn [rbind]. eauto.
    - eauto. }
  rewrite El. cbn [rbind]. pose proof (wh_ok i i Ss Ff Hi (le_n i)) as X. rewrite Ek in X. destruct X as (h & u & Eh & Eu & U). rewrite Eh. cbn [rbind]. rewrite Eu. cbn [rbind]. exists (line ++ [u]). split; [reflexivity|].
  split; [rewrite app_length; cbn; lia|]. intros j Hj. destruct (Nat.eq_dec j i) as [E|N].
  - subst j. rewrite app_nth2, Ll, Nat.sub_diag by lia. exact U.
  - rewrite app_nth1 by lia. apply Vl. lia.
Qed.
Lemma row0 i : StronglySorted lt (w_pm w) -> w_flip w = [] -> (i < length ss)%nat -> index_of i (w_pm w) = None -> rowP i (repeat tzero (Datatypes.S i)).
Proof.
  intros Ss Ff Hi Ek. split; [apply repeat_length|]. intros j Hj. pose proof (wh_ok i j Ss Ff Hi Hj) as X. rewrite Ek in X. now rewrite nth_repeat.
Qed.
Lemma wloop m : StronglySorted lt (w_pm w) -> w_flip w = [] -> (m <= length ss)%nat -> exists gs hs, ofold (wstep w fg fh) (seq 0 m) ([], [], []) = Ok (gs, hs, idxs m) /\
  length gs = m /\ length hs = m /\
  (forall i, (i < m)%nat -> rep (wdep w dep i) (Qm (wmf w mf)) (gsh (nth i ss ([], [])) out) (nth i gs tzero) (get (val (f_grad (s_wrap w sf) qs i)))) /\
  (forall i, (i < m)%nat -> rowP i (nth i hs [])).
Proof.
  intros Ss Ff. induction m as [|m IH]; intros Hm. { exists [], []. cbn. split; [reflexivity|]. split; [reflexivity|]. split; [reflexivity|]. split; intros; lia. }
  destruct IH as (gs & hs & E & Lg & Lh & G & Hh); [lia|]. rewrite seq_S, Nat.add_0_l, ofold_snoc, E. cbn [rbind wstep]. assert (Hi : (m < length ss)%nat) by lia.
  assert (Ix : idxs (Datatypes.S m) = idxs m ++ [index_of m (w_pm w)]) by (unfold idxs; now rewrite seq_S, map_app). rewrite Ix. unfold rindex.
  assert (K : forall g row, rep (wdep w dep m) (Qm (wmf w mf)) (gsh (nth m ss ([], [])) out) g (get (val (f_grad (s_wrap w sf) qs m))) -> rowP m row ->
    length (gs ++ [g]) = Datatypes.S m /\ length (hs ++ [row]) = Datatypes.S m /\
    (forall i, (i < Datatypes.S m)%nat -> rep (wdep w dep i) (Qm (wmf w mf)) (gsh (nth i ss ([], [])) out) (nth i (gs ++ [g]) tzero) (get (val (f_grad (s_wrap w sf) qs i)))) /\
    (forall i, (i < Datatypes.S m)%nat -> rowP i (nth i (hs ++ [row]) []))).
  { intros g row Hg Hr. split; [rewrite app_length; cbn; lia|]. split; [rewrite app_length; cbn; lia|]. split.
    - intros i Hl. destruct (Nat.eq_dec i m) as [X|N]; [subst i; rewrite app_nth2, Lg, Nat.sub_diag by lia; exact Hg|rewrite app_nth1 by lia; apply G; lia].
    - intros i Hl. destruct (Nat.eq_dec i m) as [X|N]; [subst i; rewrite app_nth2, Lh, Nat.sub_diag by lia; exact Hr|rewrite app_nth1 by lia; apply Hh; lia]. }
  destruct (index_of m (w_pm w)) as [k|] eqn:Ek.
  - cbn [rbind]. destruct (wg_some m k Hi Ek) as (g & u & Eg & Eu & U). rewrite Eg. cbn [rbind]. rewrite Eu. cbn [rbind]. destruct (wrow_ok m k Ss Ff Hi Ek) as (row & Ew & Hr). rewrite Ew.
    exists (gs ++ [u]), (hs ++ [row]). split; [reflexivity|]. now apply K.
  - cbn [rbind]. exists (gs ++ [tzero]), (hs ++ [repeat tzero (Datatypes.S m)]). split; [reflexivity|]. apply K; [now apply wg_none|now apply row0].
Qed.
End At.
Theorem wrap_eok : eok ss out (fun qs => D (FuncWrapP.psub w qs)) (wmf w mf) (wdep w dep) (colw col o) (o_wrap w ob) (s_wrap w sf).
Proof.
  intros ps qs Pp d. destruct (H _ _ (prms_sub w ss ps qs B Pp) d) as ([[v fg] fh] & Ev & Er). destruct (wv ps qs v fg fh Pp Er) as (u & Eu & U). cbn [o_wrap o_eval].
  pose proof (proj1 Pp) as L. assert (N : exists b, t_nullh (o_f ob) = b) by eauto. destruct N as [[|] N]; rewrite N.
  - unfold wrap_evalP_null. rewrite (imap_vsub w ss ps B L). cbn [rbind]. rewrite Ev. cbn [rbind]. rewrite Eu. cbn [rbind]. rewrite L.
    destruct (rmapM_seq (fun i => catch_val (let! k := rindex (w_pm w) i in let! g := rnth fg k in tw_expand w g))
      (fun i u => rep (wdep w dep i) (Qm (wmf w mf)) (gsh (nth i ss ([], [])) out) u (get (val (f_grad (s_wrap w sf) qs i)))) tzero (length ss)) as (gs & Eg & Lg & G).
    { intros i Hi. unfold rindex. destruct (index_of i (w_pm w)) as [k|] eqn:Ek; cbn [rbind].
      - destruct (wg_some ps qs v fg fh Pp Er i k Hi Ek) as (g & x & -> & Ex & X). cbn [rbind]. rewrite Ex. exists x. split; [reflexivity|exact X].
      - cbn [catch_val]. exists tzero. split; [reflexivity|]. now apply (wg_none ps qs Pp). }
    rewrite Eg. cbn [rbind]. eexists. split; [reflexivity|]. split; [exact U|]. split; [exact Lg|]. split; [now rewrite map_length, seq_length|]. split; [exact G|]. intros i Hi.
    rewrite (nth_indep _ [] (repeat tzero 1)) by (now rewrite map_length, seq_length). rewrite (map_nth (fun i => repeat tzero (Datatypes.S i)) (seq 0 (length ss)) 0%nat i), seq_nth by exact Hi. rewrite Nat.add_0_l.
    split; [apply repeat_length|]. intros j Hj. rewrite nth_repeat. cbn [s_wrap f_hess]. rewrite <- (rf_nh _ _ _ _ _ _ _ _ R), N. apply rep_dzero.
  - destruct So as [Ss|]; [|congruence]. assert (Ff : w_flip w = []) by (destruct Fl as [F | (_ & _ & _ & F & _)]; [exact F|congruence]).
    unfold wrap_evalP. rewrite (imap_vsub w ss ps B L). cbn [rbind]. rewrite Ev. cbn [rbind]. rewrite Eu. cbn [rbind]. rewrite L.
    destruct (wloop ps qs v fg fh Pp Er (length ss) Ss Ff (le_n _)) as (gs & hs & E & Lg & Lh & G & Hh). rewrite E. cbn [rbind]. exists (u, gs, hs). split; [reflexivity|]. repeat (split; [assumption|]). exact Hh.
Qed.
End Wrap.
End ex.
