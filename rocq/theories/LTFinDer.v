(** The log-likelihood of Finite and its derivatives. *)
From Verif Require Import Prelude DenseModel AnalyticSpec DenseProofs NDArray NDProofs TensorModel TensorSpec TensorSpecOps TensorLemmas TensorBasic TensorSum TensorSumMain TensorBin TensorArith TensorShape TensorExpand TensorGeneric TensorGSum TensorGUni TensorDotCore TensorDot TensorUfunc TensorUfuncP FuncModel FuncSpec FTModel FTSpec FTRep FTRep2 FTRep3 FTVal FTRefine FTSum FTBuilt LTModel LTPlain LTProd LTOuter LTCell LTEst LTLik LTSpec LTMix LTFinite.
From Verif Require FuncPrim FuncLemmas FuncSum FuncAffine FuncCompose LTDer.
From Coquelicot Require Import Coquelicot.
From Coq Require Import Reals Lra.
Import List ListNotations.
Open Scope R_scope.
#[local] Existing Instance full_dims.

Section fin.
Variables (ss : list pst) (dat : pst) (D : list pval -> Prop) (f : tfun).
Hypothesis OM : obs_model ss dat D f.
Hypothesis Hp : posl (flat dat).
Hypothesis HN : fst dat <> [].
Variables (N : pval) (Nv : idx -> idx -> R).
Hypothesis PN : pl 2 dat N Nv.
Notation obs := (obs f).
Notation e := (e_Finite N).
Notation zs := (zs dat).
Definition Dfin (ps : list pval) : Prop := D ps /\ forall n d, In n (indices (fst dat)) -> In d (indices (snd dat)) -> 0 < obs ps n d.

Lemma ydims ps y : are_pars ss ps -> D ps -> t_call f ps = Ok y -> forall t, y = PT t -> sD t = snd dat.
Proof. intros Pp d E t ->. exact (om_dims _ _ _ _ OM ps t Pp d E). Qed.
Lemma fin_call ps : are_pars ss ps -> D ps -> exists v, t_call (loglik e f) ps = Ok v /\ blk [] [] v (fun _ _ => tot dat (fun n d => Nv n d * (ln (obs ps n d) - ln (zs (obs ps) n)))).
Proof.
  intros Pp d. destruct (om_call _ _ _ _ OM ps Pp d) as (y & Ey & Py). cbn [t_call loglik]. rewrite Ey. cbn [rbind].
  exact (finite_like dat Hp HN N Nv PN y _ Py (ydims ps y Pp d Ey)).
Qed.
Lemma fin_grad ps i : are_pars ss ps -> D ps -> (i < length ss)%nat -> exists v, t_grad (loglik e f) ps i = Ok v /\
  blk (sh ss i) [] v (fun x _ => tot dat (fun n d => Nv n d * (at_res (t_grad f ps i) x [] n d / obs ps n d - zs (at_res (t_grad f ps i) x []) n / zs (obs ps) n))).
Proof.
  intros Pp d Hi. destruct (om_call _ _ _ _ OM ps Pp d) as (y & Ey & Py). cbn [t_grad loglik]. rewrite Ey. cbn [rbind].
  destruct (ders_ok ss dat D f OM ps Pp d) as (der & Ed & Ld & Id). rewrite Ed. cbn [rbind].
  destruct (finite_grad dat Hp HN N Nv PN y _ (sh ss) der _ (om_par _ _ _ _ OM) Py (ydims ps y Pp d Ey) Id) as (gs & Eg & Lg & Q). rewrite Eg. cbn [rbind]. unfold rnth.
  destruct (nth_error gs i) as [v|] eqn:Ev; [|apply nth_error_None in Ev; lia]. exists v. split; [reflexivity|]. exact (Q i v Ev).
Qed.
Lemma fin_hess ps i j : are_pars ss ps -> D ps -> (i < length ss)%nat -> (j <= i)%nat -> exists v, t_hess (loglik e f) ps i j = Ok v /\
  blk (sh ss i) (sh ss j) v (fun x y => tot dat (fun n d => Nv n d *
    ((at_res (t_hess f ps i j) x y n d - at_res (t_grad f ps i) x [] n d * at_res (t_grad f ps j) y [] n d / obs ps n d) / obs ps n d -
     (zs (at_res (t_hess f ps i j) x y) n - zs (at_res (t_grad f ps i) x []) n * zs (at_res (t_grad f ps j) y []) n / zs (obs ps) n) / zs (obs ps) n))).
Proof.
  intros Pp d Hi Hj. destruct (om_call _ _ _ _ OM ps Pp d) as (y & Ey & Py). cbn [t_hess loglik]. rewrite Ey. cbn [rbind].
  destruct (ders_ok ss dat D f OM ps Pp d) as (der & Ed & Ld & Id). rewrite Ed. cbn [rbind]. destruct (hesses_ok ss dat D f OM ps Pp d) as (hs & Eh & Ih). rewrite Eh. cbn [rbind]. rewrite <- Ld in Ih.
  destruct (finite_hess dat Hp HN N Nv PN y _ (sh ss) der _ hs _ (om_par _ _ _ _ OM) Py (ydims ps y Pp d Ey) Id Ih) as (bs & Eb & Lb & Q). rewrite Eb. cbn [rbind]. apply Q; lia.
Qed.
Lemma fin_call_at ps n d : are_pars ss ps -> D ps -> at_res (t_call (loglik e f) ps) [] [] n d = tot dat (fun n d => Nv n d * (ln (obs ps n d) - ln (zs (obs ps) n))).
Proof. intros Pp d0. destruct (fin_call ps Pp d0) as (v & Ev & B). unfold at_res at 1. rewrite Ev. cbn [res0]. exact (blk_get _ _ _ _ _ _ n d B i00 i00). Qed.
Lemma fin_grad_at ps i x n d : are_pars ss ps -> D ps -> (i < length ss)%nat -> In x (indices (sh ss i)) -> at_res (t_grad (loglik e f) ps i) x [] n d =
  tot dat (fun n d => Nv n d * (at_res (t_grad f ps i) x [] n d / obs ps n d - zs (at_res (t_grad f ps i) x []) n / zs (obs ps) n)).
Proof. intros Pp d0 Hi Hx. destruct (fin_grad ps i Pp d0 Hi) as (v & Ev & B). unfold at_res at 1. rewrite Ev. cbn [res0]. exact (blk_get _ _ _ _ _ _ n d B Hx i00). Qed.
Lemma fin_hess_at ps i j x y n d : are_pars ss ps -> D ps -> (i < length ss)%nat -> (j <= i)%nat -> In x (indices (sh ss i)) -> In y (indices (sh ss j)) ->
  at_res (t_hess (loglik e f) ps i j) x y n d = tot dat (fun n d => Nv n d *
    ((at_res (t_hess f ps i j) x y n d - at_res (t_grad f ps i) x [] n d * at_res (t_grad f ps j) y [] n d / obs ps n d) / obs ps n d -
     (zs (at_res (t_hess f ps i j) x y) n - zs (at_res (t_grad f ps i) x []) n * zs (at_res (t_grad f ps j) y []) n / zs (obs ps) n) / zs (obs ps) n)).
Proof. intros Pp d0 Hi Hj Hx Hy. destruct (fin_hess ps i j Pp d0 Hi Hj) as (v & Ev & B). unfold at_res at 1. rewrite Ev. cbn [res0]. exact (blk_get _ _ _ _ _ _ n d B Hx Hy). Qed.
Lemma zs_ext G H n : (forall d, In d (indices (snd dat)) -> G n d = H n d) -> zs G n = zs H n.
Proof. intros E. apply Rsum_ext. exact E. Qed.
Lemma zs_pos ps n : Dfin ps -> In n (indices (fst dat)) -> 0 < zs (obs ps) n.
Proof. intros [_ P] Hn. apply Rsum_pos; [apply indices_ne, HpD; auto|]. intros d Hd. now apply P. Qed.
Lemma D_zs (g : R -> idx -> idx -> R) (dg : idx -> idx -> R) n t : (forall d, In d (indices (snd dat)) -> is_derive (fun s => g s n d) t (dg n d)) -> is_derive (fun s => zs (g s) n) t (zs dg n).
Proof. intros H. apply is_derive_Rsum. intros d Hd. now apply H. Qed.
Lemma pairing_zs (G : nat -> idx -> idx -> idx -> R) n v : pairing ss (fun i x => zs (G i x) n) v = zs (fun n d => pairing ss (fun i x => G i x n d) v) n.
Proof. unfold LTFinite.zs. apply FuncAffine.pairing_Rsum. Qed.

Theorem fin_correct : t_correct ss ([], []) Dfin (loglik e f).
Proof.
  pose proof (om_cor _ _ _ _ OM) as TC. constructor.
  - intros ps Pp [d _]. split; [destruct (fin_call ps Pp d) as (v & Ev & _); eauto|]. split; [intros i Hi; destruct (fin_grad ps i Pp d Hi) as (v & Ev & _); eauto|intros i j Hi Hj; destruct (fin_hess ps i j Pp d Hi Hj) as (v & Ev & _); eauto].
  - intros c v t Hc Ld n d _ _. pose proof (locally_singleton _ _ Ld) as d0. pose proof (proj1 Hc) as Pc.
    assert (LD : locally t (fun s => D (c s))) by (eapply filter_imp; [|exact Ld]; intros s ds; apply ds).
    rewrite (FuncAffine.pairing_ext ss _ (fun i x => tot dat (fun n d => Nv n d * (at_res (t_grad f (c t) i) x [] n d / obs (c t) n d - zs (at_res (t_grad f (c t) i) x []) n / zs (obs (c t)) n)))) by (intros i x Hi Hx; apply fin_grad_at; auto; apply d0).
    eapply is_derive_ext_loc; [eapply filter_imp; [|exact Ld]; intros s ds; symmetry; apply (fin_call_at (c s) n d (Pc s) (proj1 ds))|].
    rewrite pairing_tot. apply D_tot. intros m k Hm Hk.
    set (Gt := fun m k => pairing ss (fun i x => at_res (t_grad f (c t) i) x [] m k) v).
    assert (G : forall k, In k (indices (snd dat)) -> is_derive (fun s => obs (c s) m k) t (Gt m k)) by (intros k' Hk'; exact (tc_grad _ _ _ _ TC c v t Hc LD m k' Hm Hk')).
    pose proof (zs_pos (c t) m d0 Hm) as Zp. pose proof (proj2 d0 m k Hm Hk) as Yp.
    eapply is_derive_eq.
    + apply D_scal. apply (D_minus (fun s => ln (obs (c s) m k)) (fun s => ln (zs (obs (c s)) m))).
      * apply (D_ln (fun s => obs (c s) m k)); [exact Yp|exact (G k Hk)].
      * apply (D_ln (fun s => zs (obs (c s)) m)); [exact Zp|]. apply (D_zs (fun s => obs (c s)) Gt). exact G.
    + rewrite FuncAffine.pairing_scal. f_equal. unfold Gt. rewrite <- (pairing_zs (fun i x => at_res (t_grad f (c t) i) x [])).
      transitivity (/ obs (c t) m k * pairing ss (fun i x => at_res (t_grad f (c t) i) x [] m k) v + (- / zs (obs (c t)) m) * pairing ss (fun i x => zs (at_res (t_grad f (c t) i) x []) m) v); [ring|].
      rewrite <- !FuncAffine.pairing_scal, <- FuncAffine.pairing_plus. apply FuncAffine.pairing_ext. intros i x _ _. unfold Rdiv. ring.
  - intros c v t Hc Ld i x n d Hi Hx _ _. pose proof (locally_singleton _ _ Ld) as d0. pose proof (proj1 Hc) as Pc.
    assert (LD : locally t (fun s => D (c s))) by (eapply filter_imp; [|exact Ld]; intros s ds; apply ds).
    rewrite (FuncAffine.pairing_ext ss _ (fun j y => tot dat (fun n d => Nv n d *
      ((t_hess_at f (c t) i j x y n d - at_res (t_grad f (c t) i) x [] n d * at_res (t_grad f (c t) j) y [] n d / obs (c t) n d) / obs (c t) n d -
       (zs (t_hess_at f (c t) i j x y) n - zs (at_res (t_grad f (c t) i) x []) n * zs (at_res (t_grad f (c t) j) y []) n / zs (obs (c t)) n) / zs (obs (c t)) n)))).
    2:{ intros j y Hj Hy. unfold t_hess_at at 1. destruct (Nat.leb_spec j i) as [Le|Lt].
        - rewrite fin_hess_at by (auto; apply d0). apply tot_ext. intros m k _ _. unfold t_hess_at. destruct (Nat.leb_spec j i); [|lia]. reflexivity.
        - rewrite fin_hess_at by (auto; try lia; apply d0). apply tot_ext. intros m k _ _.
          assert (Eh : forall a b, t_hess_at f (c t) i j x y a b = at_res (t_hess f (c t) j i) y x a b) by (intros a b; unfold t_hess_at; destruct (Nat.leb_spec j i); [lia|reflexivity]).
          rewrite Eh. rewrite (zs_ext (t_hess_at f (c t) i j x y) (at_res (t_hess f (c t) j i) y x) m) by (intros; apply Eh). unfold Rdiv. ring. }
    eapply is_derive_ext_loc; [eapply filter_imp; [|exact Ld]; intros s ds; symmetry; apply (fin_grad_at (c s) i x n d (Pc s) (proj1 ds) Hi Hx)|].
    rewrite pairing_tot. apply D_tot. intros m k Hm Hk.
    set (Gt := fun m k => pairing ss (fun i x => at_res (t_grad f (c t) i) x [] m k) v). set (Ht := fun m k => pairing ss (fun j y => t_hess_at f (c t) i j x y m k) v).
    assert (G : forall k, In k (indices (snd dat)) -> is_derive (fun s => obs (c s) m k) t (Gt m k)) by (intros k' Hk'; exact (tc_grad _ _ _ _ TC c v t Hc LD m k' Hm Hk')).
    assert (H : forall k, In k (indices (snd dat)) -> is_derive (fun s => at_res (t_grad f (c s) i) x [] m k) t (Ht m k)) by (intros k' Hk'; exact (tc_hess _ _ _ _ TC c v t Hc LD i x m k' Hi Hx Hm Hk')).
    pose proof (zs_pos (c t) m d0 Hm) as Zp. pose proof (proj2 d0 m k Hm Hk) as Yp.
    eapply is_derive_eq.
    + apply D_scal. apply (D_minus (fun s => at_res (t_grad f (c s) i) x [] m k / obs (c s) m k) (fun s => zs (at_res (t_grad f (c s) i) x []) m / zs (obs (c s)) m)).
      * apply (D_div (fun s => at_res (t_grad f (c s) i) x [] m k) (fun s => obs (c s) m k)); [lra|exact (H k Hk)|exact (G k Hk)].
      * apply (D_div (fun s => zs (at_res (t_grad f (c s) i) x []) m) (fun s => zs (obs (c s)) m)); [lra|apply (D_zs (fun s => at_res (t_grad f (c s) i) x []) Ht); exact H|apply (D_zs (fun s => obs (c s)) Gt); exact G].
    + rewrite FuncAffine.pairing_scal. f_equal. unfold Gt, Ht. rewrite <- (pairing_zs (fun i x => at_res (t_grad f (c t) i) x [])), <- (pairing_zs (fun j y => t_hess_at f (c t) i j x y)).
      set (y := obs (c t) m k) in *. set (z := zs (obs (c t)) m) in *. set (gi := at_res (t_grad f (c t) i) x [] m k). set (gz := zs (at_res (t_grad f (c t) i) x []) m).
      transitivity (/ y * pairing ss (fun j y => t_hess_at f (c t) i j x y m k) v + (- (gi / y / y)) * pairing ss (fun j y => at_res (t_grad f (c t) j) y [] m k) v
        + ((- / z) * pairing ss (fun j y => zs (t_hess_at f (c t) i j x y) m) v + (gz / z / z) * pairing ss (fun j y => zs (at_res (t_grad f (c t) j) y []) m) v)); [field; split; lra|].
      rewrite <- !FuncAffine.pairing_scal, <- !FuncAffine.pairing_plus. apply FuncAffine.pairing_ext. intros j y0 _ _. unfold Rdiv. ring.
  - intros ps i x y n d Pp [d0 P0] Hi Hx Hy _ _. rewrite !fin_hess_at by auto. apply tot_ext. intros m k Hm Hk.
    rewrite (tc_sym _ _ _ _ TC ps i x y m k Pp d0 Hi Hx Hy Hm Hk). rewrite (zs_ext (at_res (t_hess f ps i i) x y) (at_res (t_hess f ps i i) y x) m) by (intros u Hu; exact (tc_sym _ _ _ _ TC ps i x y m u Pp d0 Hi Hx Hy Hm Hu)).
    unfold Rdiv. ring.
Qed.
End fin.

(** as [full_model_for], for any [f] that computes what a dense function does *)
Record full_dense_model (ss : list pst) (dat : pst) (D : list pval -> Prop) (f : tfun) : Prop := mkFDM {
  fdm_built : exists out mf dep, @densely full_dims ss out D mf dep false f /\
    (forall i, (i < length ss)%nat -> dep i = true) /\
    ax_le (fst out) (fst dat) /\ snd out = snd dat /\
    (forall k, In k mf -> nth k (fst out) 1%nat = nth k (fst dat) 1%nat);
  fdm_params : Forall (fun s => posl (flat s)) ss;
  fdm_data : posl (flat dat) /\ fst dat <> [] }.
Lemma full_model_dense ss dat D f : full_model_for ss dat D f -> full_dense_model ss dat D f.
Proof. intros [(out & mf & dep & T & H) P1 P2]. constructor; auto. exists out, mf, dep. split; [now apply tbuilt_dense|exact H]. Qed.
(** *** the theorem of Props_LT.v *)
Theorem finite_right ss dat D f N : full_dense_model ss dat D f -> is_data dat N ->
  likelihood_is ss (fun ps => D ps /\ forall n d, In n (indices (fst dat)) -> In d (indices (snd dat)) -> 0 < fitted f ps n d) (e_Finite N) f
    (fun ps => over dat (fun n d => cell N n d * (ln (fitted f ps n d) - ln (fitted_total dat f ps n)))).
Proof.
  intros [(out & mf & dep & T & Dep & A1 & A2 & Mf) Pss [Hp HN]] DN. pose proof (LTDer.data_pl dat N DN) as PN.
  assert (Hne : flat dat <> []) by (intros E; apply app_eq_nil in E; now apply HN).
  assert (A3 : ax_le (snd out) (snd dat)) by (rewrite A2; apply FuncLemmas.ax_le_refl).
  pose proof (densely_obs _ _ _ _ _ _ dat T Pss Dep Hne A1 A3 A2 Mf) as OM.
  constructor.
  - intros ps Pp d. destruct (fin_call ss dat D f OM Hp HN N _ PN ps Pp (proj1 d)) as (v & Ev & B). rewrite Ev. exact (LTDer.blk_block _ _ _ _ B).
  - intros ps i Pp d Hi. destruct (fin_grad ss dat D f OM Hp HN N _ PN ps i Pp (proj1 d) Hi) as (v & Ev & B).
    eapply LTDer.block_ext; [|exact (LTDer.blk_is _ _ _ _ _ Ev B)]. intros x y Hx [<-|[]]. reflexivity.
  - intros ps i j Pp d Hi Hj. destruct (fin_hess ss dat D f OM Hp HN N _ PN ps i j Pp (proj1 d) Hi Hj) as (v & Ev & B). exact (LTDer.blk_is _ _ _ _ _ Ev B).
  - exact (fin_correct ss dat D f OM Hp HN N _ PN).
Qed.
