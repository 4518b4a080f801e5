(** The flat gradient is the gradient of the penalized log-likelihood in the free
    entries; the flat Hessian is the Jacobian of the flat gradient. *)
From Verif Require Import Prelude DenseModel AnalyticSpec DenseProofs NDArray NDProofs TensorModel TensorSpec TensorSpecOps TensorLemmas FuncModel FuncSpec FTModel FTSpec FTBuilt LTModel LTCell LTSpec LTLik LTDer ParamModel ParamProofs AssembleModel AssembleSpec OTModel OTSpec OTBlock OTFlat OTSim OTSim2 OTSim3 OTForm OTCurve.
From Verif Require AssembleProofs FuncPrim.
From Coquelicot Require Import Coquelicot.
From Coq Require Import Reals Lra Sorted.
Import List ListNotations.
Open Scope R_scope.

Lemma block_at r B : is_block r [] [] B -> at_res r [] [] [] [] = B [] [].
Proof.
  intros H. pose proof H as (t & -> & _). pose proof (block_blk [] [] (PT t) B (Forall_nil _) (Forall_nil _) H) as K.
  exact (blk_get [] [] (PT t) B [] [] [] [] K (or_introl eq_refl) (or_introl eq_refl)).
Qed.

Section main.
Variable params : list (param R).
Hypothesis PO : params_ok params.
Notation n := (length params).
Notation ss := (axes params).
Notation ps := (map arr_of params).
Variables (D : list pval -> Prop) (m : mlobj) (like : list pval -> R) (cons regs : list term).
Hypothesis M : ml_object ss D m like cons regs.
Hypothesis Ins : inside D params.
Notation LL := (loglik (m_est m) (m_model m)).

Section dir.
Variables j b : nat.
Hypothesis Hj : (j < n)%nat.
Hypothesis Hb : (b < size_of params j)%nat.
Notation c := (fun t => map arr_of (set_entry params j b t)).
Notation t0 := (entry_of params j b).
Notation xb := (ipos params j b).

Lemma near : locally t0 (fun t => D (c t)).
Proof. now apply Ins. Qed.
Lemma curve_at : c t0 = ps.
Proof. cbn beta. now rewrite set_same. Qed.
Lemma unit_pairing G : pairing ss G (unit_at params j b) = G j xb.
Proof. unfold unit_at. apply pairing_unit; [now rewrite axes_len|now apply pos_in]. Qed.
Lemma curve : par_curve ss c (unit_at params j b) t0.
Proof. now apply set_curve. Qed.

Lemma term_facts r : In r (cons ++ regs) -> StronglySorted lt (tm_map r) /\ Forall (fun k => k < length ss)%nat (tm_map r) /\ tm_dom r (argt ps r) /\
  par_curve (sub_axes (tm_map r) ss) (fun t => argt (c t) r) (fun p x => unit_at params j b (nth p (tm_map r) 0%nat) x) t0 /\ locally t0 (fun t => tm_dom r (argt (c t) r)).
Proof.
  intros Hr. destruct (mo_maps _ _ _ _ _ _ M r Hr) as (N & S & F & Hd). split; [exact S|]. split; [exact F|]. split; [apply Hd; [now apply params_are|apply Ins]|]. split; [apply sub_curve; [exact F|exact curve]|].
  eapply filter_imp; [|exact near]. intros t Dt. apply Hd; [apply curve|exact Dt].
Qed.
Lemma term_pairing r G : In r (cons ++ regs) -> pairing (sub_axes (tm_map r) ss) G (fun p x => unit_at params j b (nth p (tm_map r) 0%nat) x) = Rsum (fun p => G p xb) (occurrences (tm_map r) j).
Proof. intros Hr. destruct (term_facts r Hr) as (_ & F & _). apply sub_pairing; [exact F|now apply pos_in]. Qed.

Lemma like_derive : is_derive (fun t => like (c t)) t0 (at_res (t_grad LL ps j) xb [] [] []).
Proof.
  pose proof (tc_grad _ _ _ _ (lr_derivatives _ _ _ _ _ (mo_like _ _ _ _ _ _ M)) _ _ _ curve near [] [] (or_introl eq_refl) (or_introl eq_refl)) as H. rewrite unit_pairing in H. rewrite set_same in H.
  eapply is_derive_ext_loc; [|exact H]. eapply filter_imp; [|exact near]. intros t Dt. apply (block_at _ (fun _ _ => like (c t))). apply (lr_value _ _ _ _ _ (mo_like _ _ _ _ _ _ M)); [apply curve|exact Dt].
Qed.
Lemma reg_derive r : In r regs -> is_derive (fun t => term_at (c t) r) t0 (Rsum (fun p => at_res (t_grad (tm_fun r) (argt ps r) p) xb [] [] []) (occurrences (tm_map r) j)).
Proof.
  intros Hr. assert (Hr' : In r (cons ++ regs)) by (apply in_or_app; now right). destruct (term_facts r Hr') as (_ & F & Dr & Cr & Lr). pose proof (mo_regs _ _ _ _ _ _ M r Hr) as P.
  pose proof (tc_grad _ _ _ _ (pn_derivatives _ _ _ _ P) _ _ _ Cr Lr [] [] (or_introl eq_refl) (or_introl eq_refl)) as H. rewrite term_pairing in H by exact Hr'. cbn beta in H. rewrite set_same in H.
  eapply is_derive_ext_loc; [|exact H]. eapply filter_imp; [|exact Lr]. intros t Dt. apply (block_at _ (fun _ _ => tm_val r (argt (c t) r))). apply (pn_value _ _ _ _ P); [apply Cr|exact Dt].
Qed.
Lemma penalized_derive : is_derive (fun t => penalized like regs (c t)) t0 (grad_entry LL regs ps j xb).
Proof.
  unfold penalized, grad_entry. apply @is_derive_minus; [exact like_derive|]. apply (is_derive_Rsum (fun t r => term_at (c t) r)). intros r Hr. now apply reg_derive.
Qed.
Lemma con_derive r : In r cons -> is_derive (fun t => term_at (c t) r) t0 (con_der ps r j xb).
Proof.
  intros Hr. assert (Hr' : In r (cons ++ regs)) by (apply in_or_app; now left). destruct (term_facts r Hr') as (_ & F & Dr & Cr & Lr).
  pose proof (cn_derivative _ _ _ _ _ (mo_cons _ _ _ _ _ _ M r Hr) _ _ _ Cr Lr) as H. rewrite term_pairing in H by exact Hr'. cbn beta in H. rewrite set_same in H. exact H.
Qed.

Variables i a : nat.
Hypothesis Hi : (i < n)%nat.
Hypothesis Ha : (a < size_of params i)%nat.
Notation xa := (ipos params i a).
Lemma xa_in : In xa (indices (flat (nth i ss ([], [])))).
Proof. now apply pos_in. Qed.
Lemma xb_in : In xb (indices (flat (nth j ss ([], [])))).
Proof. now apply pos_in. Qed.
Lemma like_grad_derive : is_derive (fun t => at_res (t_grad LL (c t) i) xa [] [] []) t0 (t_hess_at LL ps i j xa xb [] []).
Proof.
  pose proof (tc_hess _ _ _ _ (lr_derivatives _ _ _ _ _ (mo_like _ _ _ _ _ _ M)) _ _ _ curve near i xa [] []) as H. rewrite axes_len in H. specialize (H Hi xa_in (or_introl eq_refl) (or_introl eq_refl)). rewrite unit_pairing in H. rewrite set_same in H. exact H.
Qed.
Lemma reg_grad_derive r p : In r regs -> In p (occurrences (tm_map r) i) -> is_derive (fun t => at_res (t_grad (tm_fun r) (argt (c t) r) p) xa [] [] []) t0
  (Rsum (fun q => t_hess_at (tm_fun r) (argt ps r) p q xa xb [] []) (occurrences (tm_map r) j)).
Proof.
  intros Hr Hp. apply AssembleProofs.in_occurrences in Hp as [Hp Ei]. assert (Hr' : In r (cons ++ regs)) by (apply in_or_app; now right). destruct (term_facts r Hr') as (_ & F & Dr & Cr & Lr).
  pose proof (tc_hess _ _ _ _ (pn_derivatives _ _ _ _ (mo_regs _ _ _ _ _ _ M r Hr)) _ _ _ Cr Lr p xa [] []) as H. rewrite sub_axes_len, sub_axes_nth, Ei in H by exact Hp.
  specialize (H Hp). rewrite <- (flat_axes params i) in H. specialize (H xa_in (or_introl eq_refl) (or_introl eq_refl)). rewrite term_pairing in H by exact Hr'. cbn beta in H. rewrite set_same in H. exact H.
Qed.
Lemma reg_pairs r : In r regs -> Rsum (fun p => Rsum (fun q => t_hess_at (tm_fun r) (argt ps r) p q xa xb [] []) (occurrences (tm_map r) j)) (occurrences (tm_map r) i) =
  if Nat.ltb j i then Rsum (fun pq => at_res (t_hess (tm_fun r) (argt ps r) (fst pq) (snd pq)) xa xb [] []) (occurrences2 (tm_map r) i j)
  else Rsum (fun pq => at_res (t_hess (tm_fun r) (argt ps r) (fst pq) (snd pq)) xb xa [] []) (occurrences2 (tm_map r) j i).
Proof.
  intros Hr. assert (Hr' : In r (cons ++ regs)) by (apply in_or_app; now right). destruct (term_facts r Hr') as (St & F & Dr & Cr & Lr). destruct (Nat.ltb_spec j i) as [Hji|Hji].
  - rewrite (occ_pairs (tm_map r) i j (fun p q => t_hess_at (tm_fun r) (argt ps r) p q xa xb [] [])) by (auto; lia). apply Rsum_ext. intros [p q] Hpq. apply in_occ2 in Hpq as (Hpq & _). cbn [fst snd]. unfold t_hess_at. destruct (Nat.leb_spec q p); [reflexivity|lia].
  - rewrite Rsum_swap. rewrite (occ_pairs (tm_map r) j i (fun q p => t_hess_at (tm_fun r) (argt ps r) p q xa xb [] [])) by (auto; lia). apply Rsum_ext. intros [q p] Hpq. apply in_occ2 in Hpq as (Hpq & Ej & Ei). cbn [fst snd]. unfold t_hess_at. destruct (Nat.leb_spec q p) as [Hqp|Hqp]; [|reflexivity].
    assert (p = q) by lia. subst q. rewrite Ei in Ej. pose proof (tc_sym _ _ _ _ (pn_derivatives _ _ _ _ (mo_regs _ _ _ _ _ _ M r Hr)) (argt ps r) p xa xb [] []) as H. rewrite sub_axes_len, sub_axes_nth, Ei in H by lia.
    rewrite <- (flat_axes params i) in H. apply H; [apply (sub_are params); [now apply params_are|now rewrite <- axes_len]|exact Dr|lia|exact xa_in| |now left|now left]. rewrite Ej. exact xb_in.
Qed.
Lemma grad_derive : is_derive (fun t => grad_entry LL regs (c t) i xa) t0 (full_entry params LL regs (i, a) (j, b)).
Proof.
  assert (E : full_entry params LL regs (i, a) (j, b) = t_hess_at LL ps i j xa xb [] [] - Rsum (fun r => Rsum (fun p => Rsum (fun q => t_hess_at (tm_fun r) (argt ps r) p q xa xb [] []) (occurrences (tm_map r) j)) (occurrences (tm_map r) i)) regs).
  { rewrite (Rsum_ext _ _ _ reg_pairs). unfold full_entry, hess_entry, t_hess_at. destruct (Nat.ltb_spec j i) as [Hji|Hji].
    - destruct (Nat.leb_spec j i); [reflexivity|lia].
    - destruct (Nat.leb_spec j i) as [Hle|Hle]; [|reflexivity]. f_equal. assert (E : j = i) by lia. pose proof xb_in as Xb. pose proof xa_in as Xa. rewrite E in Xb |- *.
      apply (tc_sym _ _ _ _ (lr_derivatives _ _ _ _ _ (mo_like _ _ _ _ _ _ M))); [now apply params_are|apply Ins|now rewrite axes_len| |exact Xa|now left|now left].
      exact Xb. }
  rewrite E. unfold grad_entry. apply @is_derive_minus; [exact like_grad_derive|]. apply (is_derive_Rsum (fun t r => Rsum (fun p => at_res (t_grad (tm_fun r) (argt (c t) r) p) xa [] [] []) (occurrences (tm_map r) i))). intros r Hr.
  apply (is_derive_Rsum (fun t p => at_res (t_grad (tm_fun r) (argt (c t) r) p) xa [] [] [])). intros p Hp. now apply reg_grad_derive.
Qed.
End dir.
End main.
