(** The log-likelihood of a model, as a function of the parameters. *)
From Verif Require Import Prelude DenseModel AnalyticSpec DenseProofs NDArray NDProofs TensorModel TensorSpec TensorSpecOps TensorLemmas TensorBasic TensorSum TensorSumMain TensorBin TensorArith TensorShape TensorExpand TensorGeneric TensorGSum TensorGUni TensorDotCore TensorDot TensorUfunc TensorUfuncP FuncModel FuncSpec FTModel FTSpec FTRep FTRep2 FTRep3 FTVal FTRefine FTSum FTBuilt LTModel LTPlain LTProd LTOuter LTCell LTEst.
From Verif Require FuncPrim FuncLemmas FuncSum FuncAffine FuncCompose.
From Coquelicot Require Import Coquelicot.
From Coq Require Import Reals Lra.
Import List ListNotations.
Open Scope R_scope.
Section ex.
Context {ex : exdims}.

Definition sh (ss : list pst) (i : nat) : list nat := flat (nth i ss ([], [])).
(** what a likelihood needs to know about the model *)
Record obs_model (ss : list pst) (dat : pst) (D : list pval -> Prop) (f : tfun) : Prop := mkOM {
  om_par : forall i, posl (sh ss i);
  om_call : forall ps, are_pars ss ps -> D ps -> exists y, t_call f ps = Ok y /\ pl 1 dat y (at_res (t_call f ps) [] []);
  om_dims : forall ps t, are_pars ss ps -> D ps -> t_call f ps = Ok (PT t) -> DR (sD t) (snd dat);
  om_grad : forall ps i, are_pars ss ps -> D ps -> (i < length ss)%nat ->
    exists g, t_grad f ps i = Ok g /\ rep true anyQ (S4 dat (sh ss i) []) g (at_res (t_grad f ps i));
  om_hess : forall ps i j, are_pars ss ps -> D ps -> (i < length ss)%nat -> (j <= i)%nat ->
    exists h, t_hess f ps i j = Ok h /\ rep false anyQ (S4 dat (sh ss i) (sh ss j)) h (at_res (t_hess f ps i j));
  om_cor : t_correct ss dat D f }.

Lemma get_clamp_le1 a n d x y (N D : list nat) : le1 (ns a) N -> le1 (ds a) D -> get a x y n d = get a x y (clamp N n) (clamp D d).
Proof. intros H1 H2. unfold get. now rewrite <- (clamp_le1 (ns a) N n H1), <- (clamp_le1 (ds a) D d H2). Qed.
Lemma rep_clamp nz Q S v F x y n d : rep nz Q S v F -> get (vden v) x y n d = get (vden v) x y (clamp (SN S) n) (clamp (SD S) d).
Proof.
  intros [(_ & Z & _)|[P _]]; [now rewrite !zval_get|]. destruct v as [c|a|t|g]; [destruct P|destruct P| |]; cbn [vden].
  - destruct P as [[X _] _]. apply get_clamp_le1; [apply X|exact (xf_d _ _ X)].
  - rewrite !get_gden. unfold gsum_at. apply Rsum_ext. intros e He. destruct P as (_ & Fe & _). destruct (proj1 (Forall_forall _ _) Fe e He) as (t & -> & X & _). cbn [iden]. apply get_clamp_le1; [apply X|exact (xf_d _ _ X)].
Qed.
Theorem densely_obs ss out D mf dep f dat : densely ss out D mf dep false f -> Forall (fun s => posl (flat s)) ss ->
  (forall i, (i < length ss)%nat -> dep i = true) -> flat dat <> [] ->
  ax_le (fst out) (fst dat) -> ax_le (snd out) (snd dat) -> DR (snd out) (snd dat) -> (forall k, In k mf -> nth k (fst out) 1%nat = nth k (fst dat) 1%nat) ->
  obs_model ss dat D f.
Proof.
  intros T Pss Dep NE A1 A2 AD Mf. pose proof (densely_correct _ _ _ _ _ _ _ T) as TC. destruct T as (sf & C & _ & Rf).
  pose proof (ax_le1 _ _ A1) as L1. pose proof (ax_le1 _ _ A2) as L2.
  assert (Call : forall ps, are_pars ss ps -> D ps -> exists t, t_call f ps = Ok (PT t) /\ plt t /\ ns (den t) = fst out /\ ds (den t) = snd out).
  { intros ps Pp d. destruct (rf_call _ _ _ _ _ _ _ _ Rf ps _ (are_pars_prms _ _ Pp) (are_pars_Dd _ _ _ Pp d)) as (v & Ev & [(? & _)|(t & -> & Pt)]); [discriminate|].
    exists t. split; [exact Ev|]. destruct Pt as (W & X & Y & Hn & Hd & _). split; [exact (conj W (conj X Y))|]. split; assumption. }
  assert (Grad : forall ps i, are_pars ss ps -> D ps -> (i < length ss)%nat -> exists g, t_grad f ps i = Ok g /\ rep true (Qm mf) (gsh (nth i ss ([], [])) out) g (get (vden g))).
  { intros ps i Pp d Hi. destruct (rf_grad _ _ _ _ _ _ _ _ Rf ps _ i (are_pars_prms _ _ Pp) (are_pars_Dd _ _ _ Pp d) Hi) as (v & Ev & R). exists v. split; [exact Ev|]. rewrite (Dep i Hi) in R.
    eapply rep_ext; [exact R|]. intros x y n d0 Hx. symmetry. eapply rep_get; eauto. }
  assert (Hess : forall ps i j, are_pars ss ps -> D ps -> (i < length ss)%nat -> (j <= i)%nat -> exists g, t_hess f ps i j = Ok g /\ rep false (Qm mf) (hsh (nth i ss ([], [])) (nth j ss ([], [])) out) g (get (vden g))).
  { intros ps i j Pp d Hi Hj. destruct (rf_hess _ _ _ _ _ _ _ _ Rf ps _ i j (are_pars_prms _ _ Pp) (are_pars_Dd _ _ _ Pp d) Hi Hj) as (v & Ev & R). exists v. split; [exact Ev|].
    eapply rep_ext; [exact R|]. intros x y n d0 Hx. symmetry. eapply rep_get; eauto. }
  assert (Cc : forall ps n d, are_pars ss ps -> D ps -> at_res (t_call f ps) [] [] n d = at_res (t_call f ps) [] [] (clamp (fst out) n) (clamp (snd out) d)).
  { intros ps n d Pp d0. destruct (Call ps Pp d0) as (t & Et & _ & En & Ed). unfold at_res. rewrite Et. cbn [res0 vden]. apply get_clamp_le1; [rewrite En|rewrite Ed]; apply le1_same. }
  assert (Cg : forall ps i x n d, are_pars ss ps -> D ps -> (i < length ss)%nat -> at_res (t_grad f ps i) x [] n d = at_res (t_grad f ps i) x [] (clamp (fst out) n) (clamp (snd out) d)).
  { intros ps i x n d Pp d0 Hi. destruct (Grad ps i Pp d0 Hi) as (t & Et & R). unfold at_res. rewrite Et. cbn [res0]. exact (rep_clamp _ _ _ _ _ x [] n d R). }
  assert (Ch : forall ps i j x y n d, are_pars ss ps -> D ps -> (i < length ss)%nat -> (j <= i)%nat -> at_res (t_hess f ps i j) x y n d = at_res (t_hess f ps i j) x y (clamp (fst out) n) (clamp (snd out) d)).
  { intros ps i j x y n d Pp d0 Hi Hj. destruct (Hess ps i j Pp d0 Hi Hj) as (t & Et & R). unfold at_res. rewrite Et. cbn [res0]. exact (rep_clamp _ _ _ _ _ x y n d R). }
  assert (IN : forall n, In n (indices (fst dat)) -> In (clamp (fst out) n) (indices (fst out))) by (intros n; now apply FuncSum.in_axle).
  assert (ID : forall n, In n (indices (snd dat)) -> In (clamp (snd out) n) (indices (snd out))) by (intros n; now apply FuncSum.in_axle).
  assert (Pe : forall G G' v, (forall i x, (i < length ss)%nat -> In x (indices (flat (nth i ss ([], [])))) -> G i x = G' i x) -> pairing ss G v = pairing ss G' v).
  { intros G G' v H. unfold pairing. apply Rsum_ext. intros i Hi. apply in_seq in Hi. apply Rsum_ext. intros x Hx. f_equal. apply H; [lia|exact Hx]. }
  constructor.
  - intros i. unfold sh. destruct (Nat.lt_ge_cases i (length ss)) as [Hi|Hi]; [exact (proj1 (Forall_forall _ _) Pss _ (nth_In _ _ Hi))|rewrite nth_overflow by exact Hi; constructor].
  - intros ps Pp d. destruct (Call ps Pp d) as (t & Et & Pt & En & Ed). exists (PT t). split; [exact Et|]. exists t. split; [reflexivity|]. split; [exact Pt|]. split; [split; [rewrite En|rewrite Ed]; auto|].
    intros n d0 Hn Hd. unfold at_res. rewrite Et. reflexivity.
  - intros ps t Pp d Et. destruct (Call ps Pp d) as (t' & Et' & _ & _ & Ed). rewrite Et in Et'. injection Et' as <-. change (sD t) with (ds (den t)). rewrite Ed. exact AD.
  - intros ps i Pp d Hi. destruct (Grad ps i Pp d Hi) as (g & Eg & R). exists g. split; [exact Eg|]. apply (rep_weaken true (Qm mf)); [intros; exact I|].
    apply (rep_grow true mf (sh ss i) [] out dat g (get (vden g))); auto. intros x y n d0. unfold at_res. rewrite Eg. cbn [res0]. exact (rep_clamp _ _ _ _ _ x y n d0 R).
  - intros ps i j Pp d Hi Hj. destruct (Hess ps i j Pp d Hi Hj) as (g & Eg & R). exists g. split; [exact Eg|]. apply (rep_weaken false (Qm mf)); [intros; exact I|].
    apply (rep_grow false mf (sh ss i) (sh ss j) out dat g (get (vden g))); auto. intros x y n d0. unfold at_res. rewrite Eg. cbn [res0]. exact (rep_clamp _ _ _ _ _ x y n d0 R).
  - destruct TC as [TT TG TH TS]. constructor.
    + exact TT.
    + intros c v t Hc Ld n d Hn Hd. pose proof (locally_singleton _ _ Ld) as d0. pose proof (proj1 Hc) as Pc.
      rewrite (Pe _ (fun i x => at_res (t_grad f (c t) i) x [] (clamp (fst out) n) (clamp (snd out) d))) by (intros i x Hi Hx; now apply Cg).
      eapply is_derive_ext_loc; [|exact (TG c v t Hc Ld _ _ (IN n Hn) (ID d Hd))]. eapply filter_imp; [|exact Ld]. intros s ds. cbn beta. symmetry. now apply Cc.
    + intros c v t Hc Ld i x n d Hi Hx Hn Hd. pose proof (locally_singleton _ _ Ld) as d0. pose proof (proj1 Hc) as Pc.
      rewrite (Pe _ (fun j y => t_hess_at f (c t) i j x y (clamp (fst out) n) (clamp (snd out) d))).
      2:{ intros j y Hj Hy. unfold t_hess_at. destruct (Nat.leb_spec j i); apply Ch; auto; lia. }
      eapply is_derive_ext_loc; [|exact (TH c v t Hc Ld i x _ _ Hi Hx (IN n Hn) (ID d Hd))]. eapply filter_imp; [|exact Ld]. intros s ds. cbn beta. symmetry. now apply Cg.
    + intros ps i x y n d Pp d0 Hi Hx Hy Hn Hd. rewrite (Ch ps i i x y n d), (Ch ps i i y x n d) by auto. apply TS; auto.
Qed.

(** *** the likelihood of the model *)
Section lik.
Variables (ss : list pst) (dat : pst) (D : list pval -> Prop) (f : tfun).
Hypothesis OM : obs_model ss dat D f.
Hypothesis Hp : posl (flat dat).
Hypothesis Hne : flat dat <> [].
Variables (P : R -> Prop) (e : est) (ell dl d2 : idx -> idx -> R -> R).
Hypothesis CE : cell_est dat P e ell dl d2.
Hypothesis E1 : forall n d y, P y -> is_derive (ell n d) y (dl n d y).
Hypothesis E2 : forall n d y, P y -> is_derive (dl n d) y (d2 n d y).

(** the value of the model at an observation *)
Definition obs (ps : list pval) (n d : idx) : R := at_res (t_call f ps) [] [] n d.
(** the model is defined, with values where the likelihood is defined *)
Definition Dlik (ps : list pval) : Prop := D ps /\ forall n d, In n (indices (fst dat)) -> In d (indices (snd dat)) -> P (obs ps n d).

Lemma ders_ok ps : are_pars ss ps -> D ps -> exists der, ders f ps = Ok der /\ length der = length ss /\ isder dat (sh ss) der (fun i => at_res (t_grad f ps i)).
Proof.
  intros Pp d. pose proof (Forall2_length' _ _ _ Pp) as L. destruct (rmapM_nth (t_grad f ps) (fun i g => rep true anyQ (S4 dat (sh ss i) []) g (at_res (t_grad f ps i))) (seq 0 (length ps))) as (der & Ed & Ld & Q).
  - intros i a Ha. apply nth_error_seq in Ha as [-> Hi]. cbn [Nat.add]. apply (om_grad _ _ _ _ OM); auto. lia.
  - exists der. rewrite seq_length in Ld. split; [exact Ed|]. split; [lia|exact Q].
Qed.
Lemma hesses_ok ps : are_pars ss ps -> D ps -> exists hs, hesses f ps = Ok hs /\ ishess dat (sh ss) (length ss) hs (fun i j => at_res (t_hess f ps i j)).
Proof.
  intros Pp d. pose proof (Forall2_length' _ _ _ Pp) as L.
  destruct (triangle_ok (length ps) (t_hess f ps) (fun i j h => rep false anyQ (S4 dat (sh ss i) (sh ss j)) h (at_res (t_hess f ps i j)))) as (hs & Eh & Lh & Q).
  - intros i j Hi Hj. apply (om_hess _ _ _ _ OM); auto. lia.
  - exists hs. split; [exact Eh|]. intros i j Hi Hj. apply Q; lia.
Qed.
Lemma lik_call ps : are_pars ss ps -> Dlik ps -> exists v, t_call (loglik e f) ps = Ok v /\ blk [] [] v (fun _ _ => tot dat (fun n d => ell n d (obs ps n d))).
Proof.
  intros Pp [d Pd]. destruct (om_call _ _ _ _ OM ps Pp d) as (y & Ey & Py). cbn [t_call loglik]. rewrite Ey. cbn [rbind]. apply (ce_like _ _ _ _ _ _ CE y _ Py). exact Pd.
Qed.
Lemma lik_grad ps i : are_pars ss ps -> Dlik ps -> (i < length ss)%nat -> exists v, t_grad (loglik e f) ps i = Ok v /\
  blk (sh ss i) [] v (fun x _ => tot dat (fun n d => at_res (t_grad f ps i) x [] n d * dl n d (obs ps n d))).
Proof.
  intros Pp [d Pd] Hi. destruct (om_call _ _ _ _ OM ps Pp d) as (y & Ey & Py). cbn [t_grad loglik]. rewrite Ey. cbn [rbind].
  destruct (ders_ok ps Pp d) as (der & Ed & Ld & Id). rewrite Ed. cbn [rbind].
  destruct (ce_grad _ _ _ _ _ _ CE y _ (sh ss) der _ Py Pd (om_par _ _ _ _ OM) Id) as (gs & Eg & Lg & Q). rewrite Eg. cbn [rbind]. unfold rnth.
  destruct (nth_error gs i) as [v|] eqn:Ev; [|apply nth_error_None in Ev; lia]. exists v. split; [reflexivity|]. now apply Q.
Qed.
Lemma lik_hess ps i j : are_pars ss ps -> Dlik ps -> (i < length ss)%nat -> (j <= i)%nat -> exists v, t_hess (loglik e f) ps i j = Ok v /\
  blk (sh ss i) (sh ss j) v (fun x y => tot dat (fun n d => at_res (t_hess f ps i j) x y n d * dl n d (obs ps n d) +
     at_res (t_grad f ps i) x [] n d * at_res (t_grad f ps j) y [] n d * d2 n d (obs ps n d))).
Proof.
  intros Pp [d Pd] Hi Hj. destruct (om_call _ _ _ _ OM ps Pp d) as (y & Ey & Py). cbn [t_hess loglik]. rewrite Ey. cbn [rbind].
  destruct (ders_ok ps Pp d) as (der & Ed & Ld & Id). rewrite Ed. cbn [rbind]. destruct (hesses_ok ps Pp d) as (hs & Eh & Ih). rewrite Eh. cbn [rbind]. rewrite <- Ld in Ih.
  destruct (ce_hess _ _ _ _ _ _ CE y _ (sh ss) der _ hs _ Py Pd (om_par _ _ _ _ OM) Id Ih) as (bs & Eb & Lb & Q). rewrite Eb. cbn [rbind]. apply Q; lia.
Qed.
Lemma blk_get X Y v B x y n d : blk X Y v B -> In x (indices X) -> In y (indices Y) -> get (vden v) x y n d = B x y.
Proof.
  intros (t & -> & W & _ & _ & Sh & V) Hx Hy. rewrite <- V by auto. cbn [vden]. unfold get.
  rewrite (f_equal SX Sh : xs (den t) = X), (f_equal SY Sh : ys (den t) = Y), (f_equal SN Sh : ns (den t) = []), (f_equal SD Sh : ds (den t) = []), !clamp_in by auto. reflexivity.
Qed.
Lemma i00 : In ([] : idx) (indices []). Proof. now left. Qed.
Lemma lik_call_at ps n d : are_pars ss ps -> Dlik ps -> at_res (t_call (loglik e f) ps) [] [] n d = tot dat (fun n d => ell n d (obs ps n d)).
Proof. intros Pp d0. destruct (lik_call ps Pp d0) as (v & Ev & B). unfold at_res. rewrite Ev. cbn [res0]. exact (blk_get _ _ _ _ _ _ n d B i00 i00). Qed.
Lemma lik_grad_at ps i x n d : are_pars ss ps -> Dlik ps -> (i < length ss)%nat -> In x (indices (sh ss i)) -> at_res (t_grad (loglik e f) ps i) x [] n d = tot dat (fun n d => at_res (t_grad f ps i) x [] n d * dl n d (obs ps n d)).
Proof. intros Pp d0 Hi Hx. destruct (lik_grad ps i Pp d0 Hi) as (v & Ev & B). unfold at_res at 1. rewrite Ev. cbn [res0]. exact (blk_get _ _ _ _ _ _ n d B Hx i00). Qed.
Lemma lik_hess_at ps i j x y n d : are_pars ss ps -> Dlik ps -> (i < length ss)%nat -> (j <= i)%nat -> In x (indices (sh ss i)) -> In y (indices (sh ss j)) ->
  at_res (t_hess (loglik e f) ps i j) x y n d = tot dat (fun n d => at_res (t_hess f ps i j) x y n d * dl n d (obs ps n d) + at_res (t_grad f ps i) x [] n d * at_res (t_grad f ps j) y [] n d * d2 n d (obs ps n d)).
Proof. intros Pp d0 Hi Hj Hx Hy. destruct (lik_hess ps i j Pp d0 Hi Hj) as (v & Ev & B). unfold at_res at 1. rewrite Ev. cbn [res0]. exact (blk_get _ _ _ _ _ _ n d B Hx Hy). Qed.

Lemma D_tot (g : R -> idx -> idx -> R) (dg : idx -> idx -> R) t : (forall n d, In n (indices (fst dat)) -> In d (indices (snd dat)) -> is_derive (fun s => g s n d) t (dg n d)) ->
  is_derive (fun s => tot dat (g s)) t (tot dat dg).
Proof. intros H. unfold tot. apply is_derive_Rsum. intros n Hn. apply is_derive_Rsum. intros d Hd. now apply H. Qed.
Lemma pairing_tot (G : nat -> idx -> idx -> idx -> R) v : pairing ss (fun i x => tot dat (G i x)) v = tot dat (fun n d => pairing ss (fun i x => G i x n d) v).
Proof. unfold tot. rewrite FuncAffine.pairing_Rsum. apply Rsum_ext. intros n _. apply FuncAffine.pairing_Rsum. Qed.

Theorem lik_correct : t_correct ss ([], []) Dlik (loglik e f).
Proof.
  pose proof (om_cor _ _ _ _ OM) as TC. constructor.
  - intros ps Pp d. split; [destruct (lik_call ps Pp d) as (v & Ev & _); eauto|]. split; [intros i Hi; destruct (lik_grad ps i Pp d Hi) as (v & Ev & _); eauto|intros i j Hi Hj; destruct (lik_hess ps i j Pp d Hi Hj) as (v & Ev & _); eauto].
  - intros c v t Hc Ld n d _ _. pose proof (locally_singleton _ _ Ld) as d0. pose proof (proj1 Hc) as Pc.
    assert (LD : locally t (fun s => D (c s))) by (eapply filter_imp; [|exact Ld]; intros s ds; apply ds).
    rewrite (FuncAffine.pairing_ext ss _ (fun i x => tot dat (fun n d => at_res (t_grad f (c t) i) x [] n d * dl n d (obs (c t) n d)))) by (intros i x Hi Hx; now apply lik_grad_at).
    eapply is_derive_ext_loc; [eapply filter_imp; [|exact Ld]; intros s ds; symmetry; apply (lik_call_at (c s) n d (Pc s) ds)|].
    rewrite pairing_tot. apply D_tot. intros m k Hm Hk. pose proof (tc_grad _ _ _ _ TC c v t Hc LD m k Hm Hk) as G. fold (obs (c t) m k).
    eapply is_derive_eq; [apply (D_comp (ell m k) (fun s => obs (c s) m k)); [apply E1, d0; auto|exact G]|].
    rewrite <- FuncAffine.pairing_scal. apply FuncAffine.pairing_ext. intros; ring.
  - intros c v t Hc Ld i x n d Hi Hx _ _. pose proof (locally_singleton _ _ Ld) as d0. pose proof (proj1 Hc) as Pc.
    assert (LD : locally t (fun s => D (c s))) by (eapply filter_imp; [|exact Ld]; intros s ds; apply ds).
    rewrite (FuncAffine.pairing_ext ss _ (fun j y => tot dat (fun n d => t_hess_at f (c t) i j x y n d * dl n d (obs (c t) n d) + at_res (t_grad f (c t) i) x [] n d * at_res (t_grad f (c t) j) y [] n d * d2 n d (obs (c t) n d)))).
    2:{ intros j y Hj Hy. unfold t_hess_at. destruct (Nat.leb_spec j i).
        - now apply lik_hess_at.
        - rewrite lik_hess_at by (auto; lia). apply tot_ext. intros m k _ _. ring. }
    eapply is_derive_ext_loc; [eapply filter_imp; [|exact Ld]; intros s ds; symmetry; apply (lik_grad_at (c s) i x n d (Pc s) ds Hi Hx)|].
    rewrite pairing_tot. apply D_tot. intros m k Hm Hk. pose proof (tc_grad _ _ _ _ TC c v t Hc LD m k Hm Hk) as G. pose proof (tc_hess _ _ _ _ TC c v t Hc LD i x m k Hi Hx Hm Hk) as H.
    eapply is_derive_eq; [apply (D_mult (fun s => at_res (t_grad f (c s) i) x [] m k) (fun s => dl m k (obs (c s) m k))); [exact H|apply (D_comp (dl m k) (fun s => obs (c s) m k)); [apply E2, d0; auto|exact G]]|].
    rewrite FuncAffine.pairing_plus, <- !FuncAffine.pairing_scal. rewrite (Rmult_comm (pairing ss _ v) (dl _ _ _)), <- !FuncAffine.pairing_scal. f_equal; apply FuncAffine.pairing_ext; intros; ring.
  - intros ps i x y n d Pp d0 Hi Hx Hy _ _. rewrite !lik_hess_at by auto. apply tot_ext. intros m k Hm Hk.
    rewrite (tc_sym _ _ _ _ TC ps i x y m k Pp (proj1 d0) Hi Hx Hy Hm Hk). ring.
Qed.
End lik.
End ex.
