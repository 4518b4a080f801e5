(** The entries of the flat gradient and Hessian. *)
From Verif Require Import Prelude DenseModel AnalyticSpec DenseProofs NDArray NDProofs TensorModel TensorSpec TensorSpecOps TensorLemmas FuncModel FuncSpec FTModel FTSpec LTModel LTCell LTSpec LTDer ParamModel ParamProofs AssembleModel AssembleSpec OTModel OTSpec OTBlock OTFlat OTSim OTSim2 OTSim3.
From Verif Require AssembleProofs AssembleHess.
From Coq Require Import Reals Lra Sorted.
Import List ListNotations.
Open Scope R_scope.

(** the multi-index of entry [a] of parameter [i] *)
Definition ipos (params : list (param R)) (i a : nat) : idx := nth a (indices (Sh params i)) [].
Definition argt (ps : list pval) (c : term) : list pval := sub_args (tm_map c) ps.
Definition grad_entry (LL : tfun) (regs : list term) (ps : list pval) (i : nat) (x : idx) : R :=
  at_res (t_grad LL ps i) x [] [] [] - Rsum (fun c => Rsum (fun p => at_res (t_grad (tm_fun c) (argt ps c) p) x [] [] []) (occurrences (tm_map c) i)) regs.
Definition hess_entry (LL : tfun) (regs : list term) (ps : list pval) (i j : nat) (x y : idx) : R :=
  at_res (t_hess LL ps i j) x y [] [] - Rsum (fun c => Rsum (fun pq => at_res (t_hess (tm_fun c) (argt ps c) (fst pq) (snd pq)) x y [] []) (occurrences2 (tm_map c) i j)) regs.
Definition con_der (ps : list pval) (c : term) (i : nat) (x : idx) : R := Rsum (fun p => tm_der c (argt ps c) p x) (occurrences (tm_map c) i).

Section main.
Variable params : list (param R).
Hypothesis PO : params_ok params.
Notation n := (length params).
Notation ss := (axes params).
Notation ps := (map arr_of params).
Notation Sh := (Sh params).
Notation ipos := (ipos params).

Lemma mo_con_at D m like cons regs : ml_object ss D m like cons regs -> D ps -> Forall (con_at params) cons.
Proof.
  intros M Dp. apply Forall_forall. intros c Hc. destruct (mo_maps _ _ _ _ _ _ M c) as (N & S & F & Hd); [apply in_or_app; now left|]. rewrite axes_len in F.
  split; [split; [exact N|split; [now apply ascending_sorted|exact F]]|]. split; [now apply (mo_cons _ _ _ _ _ _ M)|]. apply Hd; [now apply params_are|exact Dp].
Qed.
Lemma mo_reg_at D m like cons regs : ml_object ss D m like cons regs -> D ps -> Forall (reg_at params) regs.
Proof.
  intros M Dp. apply Forall_forall. intros c Hc. destruct (mo_maps _ _ _ _ _ _ M c) as (N & S & F & Hd); [apply in_or_app; now right|]. rewrite axes_len in F.
  split; [split; [exact N|split; [now apply ascending_sorted|exact F]]|]. split; [now apply (mo_regs _ _ _ _ _ _ M)|]. apply Hd; [now apply params_are|exact Dp].
Qed.
Lemma entry_flatb X Y B a b : (a < prodn X)%nat -> (b < prodn Y)%nat -> entry 0 (flatb X Y B) (a * prodn Y + b) = B (nth a (indices X) []) (nth b (indices Y) []).
Proof.
  intros Ha Hb. rewrite <- (flatb_nth X Y B a b 0 Ha Hb). unfold entry. pose proof (flatb_len X Y B) as L. destruct (flatb X Y B) as [|v [|w l]]; try reflexivity. cbn in L. replace (a * prodn Y + b)%nat with O by nia. reflexivity.
Qed.
Lemma entry_flatb1 X B a : (a < prodn X)%nat -> entry 0 (flatb X [] B) a = B (nth a (indices X) []) [].
Proof. intros Ha. pose proof (entry_flatb X [] B a 0 Ha ltac:(cbn; lia)) as E. cbn [indices nth] in E. rewrite <- E. f_equal. change (prodn []) with 1%nat. lia. Qed.
Lemma sfc_registered c : in_maps params c -> registered params (sfc params c).
Proof.
  intros (N & As & F). unfold sfc, registered. cbn [fst snd sf_val sf_grad sf_hess]. split; [exact N|]. split; [exact F|]. split; [eauto|].
  assert (Hk : forall p, (p < length (tm_map c))%nat -> (nth p (tm_map c) O < n)%nat) by (intros p Hp; rewrite Forall_forall in F; apply F, nth_In, Hp). split.
  - eexists. split; [reflexivity|]. split; [now rewrite map_length, seq_length|]. intros p Hp. rewrite nth_map_seq by exact Hp. left. rewrite flatb_len, (size_Sh params PO) by auto. change (prodn []) with 1%nat. lia.
  - eexists. split; [reflexivity|]. split; [now rewrite map_length, seq_length|]. intros p Hp. rewrite nth_map_seq by exact Hp. split; [now rewrite map_length, seq_length|]. intros q Hq. rewrite nth_map_seq by lia. left.
    rewrite flatb_len, !(size_Sh params PO) by (apply Hk; lia). reflexivity.
Qed.
Lemma sfr_registered c : in_maps params c -> registered params (sfr params c).
Proof.
  intros (N & As & F). unfold sfr, registered. cbn [fst snd sf_val sf_grad sf_hess]. split; [exact N|]. split; [exact F|]. split; [eauto|].
  assert (Hk : forall p, (p < length (tm_map c))%nat -> (nth p (tm_map c) O < n)%nat) by (intros p Hp; rewrite Forall_forall in F; apply F, nth_In, Hp). split.
  - eexists. split; [reflexivity|]. split; [now rewrite map_length, seq_length|]. intros p Hp. rewrite nth_map_seq by exact Hp. left. rewrite flatb_len, (size_Sh params PO) by auto. change (prodn []) with 1%nat. lia.
  - eexists. split; [reflexivity|]. split; [now rewrite map_length, seq_length|]. intros p Hp. rewrite nth_map_seq by exact Hp. split; [now rewrite map_length, seq_length|]. intros q Hq. rewrite nth_map_seq by lia. left.
    rewrite flatb_len, !(size_Sh params PO) by (apply Hk; lia). reflexivity.
Qed.
Lemma glists_shaped e f : grad_shaped params (glists params e f).
Proof.
  split; [transitivity (length (seq 0 n)); [apply map_length|apply seq_length]|]. intros i Hi. unfold glists. rewrite nth_map_seq by exact Hi. rewrite flatb_len, (size_Sh params PO) by exact Hi. change (prodn []) with 1%nat. lia.
Qed.
Lemma hlists_shaped e f : hess_shaped params (hlists params e f).
Proof.
  split; [transitivity (length (seq 0 n)); [apply map_length|apply seq_length]|]. intros i Hi. unfold hlists. rewrite nth_map_seq by exact Hi. split; [now rewrite map_length, seq_length|]. intros j Hj. rewrite nth_map_seq by lia. rewrite flatb_len, !(size_Sh params PO) by lia. reflexivity.
Qed.
Lemma Rsum_map_eq {X Y} (f : Y -> R) (g : X -> Y) (h : X -> R) l : (forall x, In x l -> f (g x) = h x) -> sumA 0 Rplus f (map g l) = Rsum h l.
Proof. intros H. unfold sumA, Rsum. rewrite map_map. f_equal. apply map_ext_in. exact H. Qed.
Lemma dfun_reg c i a : in_maps params c -> (i < n)%nat -> (a < size_of params i)%nat ->
  dfun 0 Rplus params (sfr params c) i a = Rsum (fun p => at_res (t_grad (tm_fun c) (argt ps c) p) (ipos i a) [] [] []) (occurrences (tm_map c) i).
Proof.
  intros _ Hi Ha. unfold dfun, sumA, Rsum. f_equal. apply map_ext_in. intros p Hp. apply AssembleProofs.in_occurrences in Hp as [Hp Ei]. cbn [sfr fst] in Hp. unfold fgrad, sfr. cbn [fst snd sf_grad got]. rewrite nth_map_seq by exact Hp.
  cbn [sfr fst] in Ei. rewrite Ei. rewrite (size_Sh params PO) in Ha by exact Hi. rewrite entry_flatb1 by exact Ha. reflexivity.
Qed.
Lemma dfun_con c i a : in_maps params c -> (i < n)%nat -> (a < size_of params i)%nat ->
  dfun 0 Rplus params (sfc params c) i a = con_der ps c i (ipos i a).
Proof.
  intros _ Hi Ha. unfold dfun, sumA, con_der, Rsum. f_equal. apply map_ext_in. intros p Hp. apply AssembleProofs.in_occurrences in Hp as [Hp Ei]. cbn [sfc fst] in Hp. unfold fgrad, sfc. cbn [fst snd sf_grad got]. rewrite nth_map_seq by exact Hp.
  cbn [sfc fst] in Ei. rewrite Ei. rewrite (size_Sh params PO) in Ha by exact Hi. rewrite entry_flatb1 by exact Ha. reflexivity.
Qed.
Lemma in_occ2 pm i j p q : In (p, q) (occurrences2 pm i j) <-> (q <= p < length pm)%nat /\ nth p pm O = i /\ nth q pm O = j.
Proof.
  unfold occurrences2. rewrite filter_In, in_flat_map. cbn [fst snd]. rewrite andb_true_iff, !Nat.eqb_eq. split.
  - intros [(k & Hk & Hin) E]. apply in_map_iff in Hin as (q' & E' & Hq). injection E' as -> ->. apply in_seq in Hk, Hq. split; [lia|exact E].
  - intros [H E]. split; [|exact E]. exists p. split; [apply in_seq; lia|]. apply in_map_iff. exists q. split; [reflexivity|]. apply in_seq. lia.
Qed.
Lemma d2fun_reg c i a j b : in_maps params c -> (i < n)%nat -> (j < n)%nat -> (a < size_of params i)%nat -> (b < size_of params j)%nat ->
  d2fun 0 Rplus params (sfr params c) i j (a * size_of params j + b) =
  Rsum (fun pq => at_res (t_hess (tm_fun c) (argt ps c) (fst pq) (snd pq)) (ipos i a) (ipos j b) [] []) (occurrences2 (tm_map c) i j).
Proof.
  intros _ Hi Hj Ha Hb. unfold d2fun, sumA, Rsum. f_equal. apply map_ext_in. intros [p q] Hpq. apply in_occ2 in Hpq as (Hpq & Ei & Ej). cbn [sfr fst snd] in *. unfold fhess, sfr. cbn [fst snd sf_hess got]. rewrite nth_map_seq by lia. rewrite nth_map_seq by lia.
  rewrite Ei, Ej. rewrite (size_Sh params PO) in Ha, Hb |- * by assumption. rewrite entry_flatb by assumption. reflexivity.
Qed.

Lemma flat_grad_form D m like cons regs : ml_object ss D m like cons regs -> D ps ->
  flat_grad_t m params = Ok (map (fun ia => grad_entry (loglik (m_est m) (m_model m)) regs ps (fst ia) (ipos (fst ia) (snd ia))) (free_coords params) ++ map (term_at ps) cons).
Proof.
  intros M Dp. pose proof (mo_con_at _ _ _ _ _ M Dp) as HC. pose proof (mo_reg_at _ _ _ _ _ M Dp) as HR.
  rewrite (flat_grad_sim params PO D m like cons regs (mo_like _ _ _ _ _ _ M) Dp (mo_con _ _ _ _ _ _ M) (mo_reg _ _ _ _ _ _ M) HC HR).
  rewrite (AssembleProofs.flat_grad_spec 0 1 Rplus Rmult Rminus Ropp RTheory).
  - f_equal. f_equal.
    + apply map_ext_in. intros [i a] Hin. apply AssembleProofs.in_free_coords in Hin as [Hi Ha]. unfold pen_grad, grad_entry. cbn [fst snd]. f_equal.
      * unfold glists. rewrite nth_map_seq by exact Hi. rewrite (size_Sh params PO) in Ha by exact Hi. now rewrite flatb_nth1.
      * apply Rsum_map_eq. intros c Hc. rewrite Forall_forall in HR. apply dfun_reg; auto. apply (HR c Hc).
    + rewrite map_map. reflexivity.
  - apply PO.
  - apply glists_shaped.
  - apply Forall_map. eapply Forall_impl; [|exact HC]. intros c Hc. apply sfc_registered, Hc.
  - apply Forall_map. eapply Forall_impl; [|exact HR]. intros c Hc. apply sfr_registered, Hc.
Qed.
Definition full_entry (LL : tfun) (regs : list term) (ia jb : nat * nat) : R :=
  let '(i, a) := ia in let '(j, b) := jb in
  if Nat.ltb j i then hess_entry LL regs ps i j (ipos i a) (ipos j b) else hess_entry LL regs ps j i (ipos j b) (ipos i a).
Lemma pen_hess_form e f regs i a j b : Forall (reg_at params) regs -> (j <= i < n)%nat -> (a < size_of params i)%nat -> (b < size_of params j)%nat ->
  pen_hess 0 Rplus Rminus params (hlists params e f) (map (sfr params) regs) i a j b = hess_entry (loglik e f) regs ps i j (ipos i a) (ipos j b).
Proof.
  intros HR [Hj Hi] Ha Hb. unfold pen_hess, hess_entry. cbv zeta. f_equal.
  - unfold hlists. rewrite nth_map_seq by exact Hi. rewrite nth_map_seq by lia. rewrite (size_Sh params PO) in Ha, Hb |- * by lia. now rewrite flatb_nth.
  - apply Rsum_map_eq. intros c Hc. rewrite Forall_forall in HR. apply d2fun_reg; auto; try lia. apply (HR c Hc).
Qed.
Lemma flat_hess_form D m like cons regs : ml_object ss D m like cons regs -> D ps ->
  flat_hess_t m params = Ok (
    map (fun ia => map (full_entry (loglik (m_est m) (m_model m)) regs ia) (free_coords params) ++ map (fun c => con_der ps c (fst ia) (ipos (fst ia) (snd ia))) cons) (free_coords params) ++
    map (fun c => map (fun jb => con_der ps c (fst jb) (ipos (fst jb) (snd jb))) (free_coords params) ++ repeat 0 (length cons)) cons).
Proof.
  intros M Dp. pose proof (mo_con_at _ _ _ _ _ M Dp) as HC. pose proof (mo_reg_at _ _ _ _ _ M Dp) as HR.
  rewrite (flat_hess_sim params PO D m like cons regs (mo_like _ _ _ _ _ _ M) Dp (mo_con _ _ _ _ _ _ M) (mo_reg _ _ _ _ _ _ M) HC HR).
  destruct (AssembleHess.flat_hess_spec 0 1 Rplus Rmult Rminus Ropp RTheory params (hlists params (m_est m) (m_model m)) (map (sfc params) cons) (map (sfr params) regs)) as [[_ E]|[Ex _]].
  - apply PO.
  - apply hlists_shaped.
  - apply Forall_map. eapply Forall_impl; [|exact HC]. intros c Hc. apply sfc_registered, Hc.
  - apply Forall_map. eapply Forall_impl; [|exact HR]. intros c Hc. apply sfr_registered, Hc.
  - rewrite E. f_equal. unfold AssembleHess.assembled. f_equal.
    + apply map_ext_in. intros [i a] Hin. apply AssembleProofs.in_free_coords in Hin as [Hi Ha]. f_equal.
      * apply map_ext_in. intros [j b] Hjb. apply AssembleProofs.in_free_coords in Hjb as [Hj Hb]. unfold full_hess, full_entry. destruct (Nat.ltb_spec j i); apply pen_hess_form; auto; lia.
      * rewrite map_map. apply map_ext_in. intros c Hc. cbn [fst snd]. rewrite Forall_forall in HC. apply dfun_con; auto. apply (HC c Hc).
    + rewrite map_map, map_length. apply map_ext_in. intros c Hc. f_equal. apply map_ext_in. intros [j b] Hjb. apply AssembleProofs.in_free_coords in Hjb as [Hj Hb]. cbn [fst snd]. rewrite Forall_forall in HC. apply dfun_con; auto. apply (HC c Hc).
  - exfalso. apply Exists_exists in Ex as (c & Hc & N). apply N. apply in_app_or in Hc as [Hc|Hc]; apply in_map_iff in Hc as (c' & <- & Hc'); cbn [sfc sfr fst].
    + rewrite Forall_forall in HC. apply (HC c' Hc').
    + rewrite Forall_forall in HR. apply (HR c' Hc').
Qed.
End main.
