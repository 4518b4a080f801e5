(** Linear can be used as a constraint. *)
From Verif Require Import Prelude DenseModel AnalyticSpec DenseProofs NDArray NDProofs TensorModel TensorSpec TensorSpecOps TensorLemmas TensorBasic TensorSum TensorSumMain TensorBin TensorArith TensorGeneric TensorGSum TensorUfunc FuncModel FuncSpec FTModel FTSpec FTRep FTRep2 FTRep3 FTVal FTDiag FTRefine FTBuilt LTModel LTCell LTProd LTSpec LTLik LTDer ParamModel AssembleModel AssembleSpec OTModel OTSpec OTBlock OTFlat OTQuad.
From Verif Require FuncPrim OTSim2 FTSum.
From Coquelicot Require Import Coquelicot.
From Coq Require Import Reals Lra.
Import List ListNotations.
Open Scope R_scope.
#[local] Existing Instance loose.

Lemma posl_ones k : posl (repeat 1%nat k).
Proof. apply Forall_forall. intros x H. apply repeat_spec in H. subst. lia. Qed.
Lemma clamp_ones : forall sh x, In x (indices sh) -> In (clamp (repeat 1%nat (length sh)) x) (indices (repeat 1%nat (length sh))).
Proof.
  intros sh x H. apply In_indices in H. induction H as [|i s x sh Hi H IH]; [now left|]. cbn [length repeat clamp]. apply TensorLemmas.in_cons. split; [unfold clampi; cbn; lia|exact IH].
Qed.
Lemma blk_el K t B : blk K [] (PT t) B -> shp (tv t) = K /\ forall x, In x (indices K) -> el (tv t) x = B x [].
Proof.
  intros Bk. destruct (blk_values K [] (PT t) B Bk) as (a & Ea & Sa & Va). cbn in Ea. injection Ea as <-. rewrite app_nil_r in Sa. split; [exact Sa|].
  unfold entries, flatb in Va. rewrite Sa, app_nil_r in Va. intros x Hx. pose proof (ext_in_map Va x Hx) as E. cbn beta in E. rewrite E. pose proof (indices_length _ _ Hx) as L. rewrite firstn_all2, skipn_all2 by lia. reflexivity.
Qed.

Lemma combine_seq {A B} (d : A) (e : B) : forall l m, length l = length m -> combine l m = map (fun i => (nth i l d, nth i m e)) (seq 0 (length l)).
Proof.
  induction l as [|a l IH]; intros [|b m] H; try discriminate; [reflexivity|]. cbn [combine length seq map nth]. f_equal. rewrite <- seq_shift, map_map. cbn [nth]. apply IH. cbn in H. lia.
Qed.
Lemma pysum_nums : forall l, pysum (map PNum l) = Ok (PNum (fold_left Rplus l 0)).
Proof.
  intros l. unfold pysum. generalize 0. induction l as [|a l IH]; intros v; [reflexivity|]. cbn [map ofold fold_left]. cbn [py rop rbind]. apply IH.
Qed.
Lemma fold_plus : forall l v, fold_left Rplus l v = v + sumR l.
Proof. induction l as [|a l IH]; intros v; cbn [fold_left]; [unfold sumR; cbn; ring|]. rewrite IH. unfold sumR. cbn. ring. Qed.

Section linear.
Variable ss : list pst.
Hypothesis Ps : Forall (fun s => posl (flat s)) ss.
Variable ws : list R.
Hypothesis Lw : length ws = length ss.
Notation Kf i := (flat (nth i ss ([], []))).
Definition weighted (ps : list pval) : R := over_params ss (fun i x => nth i ws 0 * par_entry ps i x).

Lemma lin_call ps : are_pars ss ps -> arrays ps -> t_call (t_Linear ws) ps = Ok (PNum (weighted ps)).
Proof.
  intros A Ar. pose proof (Forall2_length' _ _ _ A) as L. cbn [t_Linear t_call].
  assert (E : rmapM (fun '(p, w) => let! v := py OMul p (PArr (np_scalar w)) in sum_all v) (combine ps ws) = Ok (map PNum (map (fun i => Rsum (fun x => nth i ws 0 * par_entry ps i x) (indices (Kf i))) (seq 0 (length ss))))).
  { rewrite (combine_seq (PNum 0) 0) by congruence. rewrite L, map_map, FTSum.rmapM_map. apply rmapM_all_ok. intros i Hi. apply in_seq in Hi. destruct (par_array ss ps i A ltac:(lia)) as (_ & _ & a & Ea & Sa & Va).
    unfold arrays in Ar. rewrite Forall_forall in Ar. destruct (Ar (nth i ps (PNum 0)) ltac:(apply nth_In; lia)) as (b & Eb). rewrite Eb in Ea |- *. cbn in Ea. injection Ea as ->. cbn [py].
    destruct (np_bin_scalar_r (rop OMul) a (nth i ws 0)) as (r & Er & Sr & Vr); [rewrite Sa; apply Kpos, Ps|]. rewrite Er. cbn [rmap rbind sum_all]. f_equal. f_equal. unfold entries. rewrite Sr, Sa, sumR_map. apply Rsum_ext. intros x Hx. rewrite Vr by (rewrite Sa; exact Hx). cbn [rop]. rewrite Va by exact Hx. ring. }
  rewrite E. cbn [rbind]. rewrite pysum_nums, fold_plus, Rplus_0_l, sumR_map. reflexivity.
Qed.
Lemma lin_grad ps i : are_pars ss ps -> (i < length ss)%nat -> exists t s, t_grad (t_Linear ws) ps i = Ok (PT t) /\ ssum (PT t) = Ok (PT s) /\
  shp (tv s) = repeat 1%nat (length (Kf i)) /\ forall x, In x (indices (repeat 1%nat (length (Kf i)))) -> el (tv s) x = nth i ws 0.
Proof.
  intros A Hi. destruct (par_array ss ps i A Hi) as (E1 & E2 & _). cbn [t_Linear t_grad]. unfold rnth at 1. rewrite (nth_error_nth' ws 0) by lia. cbn [rbind]. rewrite E2. cbn [rbind].
  destruct (grad_sum (repeat 1%nat (length (Kf i))) (mkA (repeat 1%nat (length (Kf i))) (fun _ => nth i ws 0 * 1)) (fun _ => nth i ws 0) ps i (posl_ones _) eq_refl) as (t & r & Et & Er & Br); [intros x Hx; cbn; ring|now rewrite repeat_length|].
  exists t, r. rewrite Et. split; [reflexivity|]. split; [exact Er|]. destruct (blk_el _ _ _ Br) as (Sr & Vr). split; [exact Sr|exact Vr].
Qed.
Lemma lin_hess ps i j : are_pars ss ps -> (i < length ss)%nat -> (j < length ss)%nat -> exists t, t_hess (t_Linear ws) ps i j = Ok (PT t).
Proof.
  intros A Hi Hj. destruct (par_array ss ps i A Hi) as (_ & E2 & _). destruct (par_array ss ps j A Hj) as (_ & F2 & _). cbn [t_Linear t_hess]. rewrite F2. cbn [rbind]. rewrite E2. cbn [rbind]. unfold hess_tensor. rewrite E2. cbn [rbind]. rewrite F2. cbn [rbind asarray]. unfold msel. rewrite app_assoc, <- repeat_app.
  destruct (index_nw (length (Kf i) + length (Kf j)) (mkA (repeat 1%nat (length (Kf j) + length (Kf i))) (fun _ => 0))) as (v & Ev & Sv & _). rewrite Ev. cbn [rbind].
  destruct (Tensor_ok v (repeat 1%nat (length (Kf i))) (repeat 1%nat (length (Kf j))) (repeat 1%nat (length (Kf j) + length (Kf i))) [] (amap_of MTrue (length (Kf i))) (amap_of MTrue (length (Kf j))) (length (Kf i)) (length (Kf j)) 0) as (t & Et & _); rewrite ?repeat_length; auto.
  { rewrite Sv. cbn [shp]. now rewrite repeat_app, app_nil_r, app_assoc. }
  rewrite Et. now exists t.
Qed.
Lemma Linear_constraint : constraint ss arrays (t_Linear ws) weighted (fun _ i _ => nth i ws 0).
Proof.
  constructor.
  - intros ps A Ar. exists (PNum (weighted ps)). split; [now apply lin_call|reflexivity].
  - intros ps i A _ Hi. destruct (lin_grad ps i A Hi) as (t & s & Et & Es & Ss & Vs). exists t, s. split; [exact Et|]. split; [exact Es|]. split; [right; exact Ss|]. intros x Hx. rewrite Ss. apply Vs, clamp_ones, Hx.
  - intros ps i j A _ Hi Hj. apply lin_hess; auto. lia.
  - intros c v t [A V] _. unfold weighted, over_params, pairing. apply (is_derive_Rsum (fun r i => Rsum (fun x => nth i ws 0 * par_entry (c r) i x) (indices (Kf i)))). intros i Hi. apply in_seq in Hi.
    apply (is_derive_Rsum (fun r x => nth i ws 0 * par_entry (c r) i x)). intros x Hx. unfold par_entry. apply (is_derive_scal (fun r => pentry (nth i (c r) (PNum 0)) x) t (nth i ws 0)). exact (V i x ltac:(lia) Hx).
Qed.
End linear.
