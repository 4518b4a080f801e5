(** flat_hess with Tensors: the assembled Hessian. *)
From Verif Require Import Prelude DenseModel AnalyticSpec DenseProofs NDArray NDProofs TensorModel TensorSpec TensorSpecOps TensorLemmas TensorBasic TensorBin FuncModel FuncSpec FTModel FTSpec LTModel LTCell LTSpec LTDer ParamModel ParamProofs AssembleModel AssembleSpec OTModel OTSpec OTBlock OTFlat OTSim OTSim2.
From Verif Require LTPlain AssembleProofs.
From Coq Require Import Reals Lra Sorted.
Import List ListNotations.
Open Scope R_scope.

Lemma rmapM_ext_in {A B} (f g : A -> res B) l : (forall a, In a l -> f a = g a) -> rmapM f l = rmapM g l.
Proof. induction l as [|a l IH]; intros H; [reflexivity|]. cbn [rmapM]. rewrite (H a) by (now left). rewrite IH by (intros; apply H; now right). reflexivity. Qed.
Lemma in_combine_seq {A} (d : A) : forall l a m i p, In (i, p) (combine (seq a m) l) -> (a <= i < a + m)%nat /\ (i - a < length l)%nat /\ p = nth (i - a) l d.
Proof.
  induction l as [|x l IH]; intros a m i p H; [destruct m; destruct H|]. destruct m as [|m]; [destruct H|]. cbn [seq combine] in H. destruct H as [E|H].
  - injection E as <- <-. rewrite Nat.sub_diag. cbn. repeat split; lia.
  - apply IH in H as (H1 & H2 & ->). split; [lia|]. replace (i - a)%nat with (Datatypes.S (i - Datatypes.S a)) by lia. cbn. split; [lia|reflexivity].
Qed.
Lemma flatb1 X d : flatb X [] (fun x _ => d x) = map d (indices X).
Proof. unfold flatb. rewrite app_nil_r. apply map_ext_in. intros z Hz. now rewrite <- (indices_length _ _ Hz), firstn_all. Qed.
Lemma outer_mask_len a b : length (outer_mask a b) = (length a * length b)%nat.
Proof. unfold outer_mask. rewrite (flat_map_len _ (length b)); [reflexivity|]. intros; apply map_length. Qed.

Section main.
Variable params : list (param R).
Hypothesis PO : params_ok params.
Notation n := (length params).
Notation ss := (axes params).
Notation ps := (map arr_of params).
Notation Sh := (Sh params).

(** *** the gradients of the constraints *)
Definition rcon (hc : list nda) (ls : list (list R)) : Prop :=
  length ls = n /\ forall i, (i < n)%nat -> exists a l, nth_error hc i = Some a /\ nth_error ls i = Some l /\ shp a = Sh i /\ l = entries a.
Definition con_block (sh : list nat) (b : pval) (d : idx -> R) : Prop := exists t s, b = PT t /\ ssum (PT t) = Ok (PT s) /\
  (shp (tv s) = sh \/ shp (tv s) = repeat 1%nat (length sh)) /\ forall x, In x (indices sh) -> el (tv s) (clamp (shp (tv s)) x) = d x.
Lemma iadd_ok a s sh d : posl sh -> shp a = sh -> (shp s = sh \/ shp s = repeat 1%nat (length sh)) -> (forall x, In x (indices sh) -> el s (clamp (shp s) x) = d x) ->
  exists r, np_iadd a s = Ok r /\ shp r = sh /\ entries r = map (fun x => el a x + d x) (indices sh).
Proof.
  intros P Ea Es V. assert (C : Forall2 bcompat (shp a) (shp s) /\ posl (shp s) /\ bmax (shp a) (shp s) = sh).
  { rewrite Ea. destruct Es as [->| ->].
    - split; [apply NDProofs.bcompat_refl|]. split; [exact P|apply bmax_id].
    - split; [apply NDProofs.bcompat_sym, NDProofs.bcompat_ones|]. split; [apply pos_ones|]. rewrite DenseProofs.bmax_comm. now apply bmax_ones. }
  destruct C as (C1 & C2 & C3). destruct (np_bin_ok Rplus a s C1 ltac:(now rewrite Ea) C2) as (r & Er & Sr & Vr). rewrite C3 in Sr. unfold np_iadd. rewrite Er. cbn [rbind]. rewrite Sr, Ea, shape_eqb_refl.
  exists r. split; [reflexivity|]. split; [exact Sr|]. unfold entries. rewrite Sr. apply map_ext_in. intros x Hx. rewrite Vr by (unfold ndim; rewrite Ea; apply (indices_length _ _ Hx)).
  rewrite V by exact Hx. rewrite Ea, clamp_in by exact Hx. reflexivity.
Qed.
Lemma acc_con_sim : forall pm bs (ds : list (idx -> R)) hc ls, length bs = length pm -> length ds = length pm -> Forall (fun k => k < n)%nat pm -> rcon hc ls ->
  (forall p, (p < length pm)%nat -> con_block (Sh (nth p pm O)) (nth p bs (PNum 0)) (nth p ds (fun _ => 0))) ->
  exists hc' ls', acc_con hc pm bs = Ok hc' /\ acc_grad R Rplus ls pm (map (fun p => flatb (Sh (nth p pm O)) [] (fun x _ => nth p ds (fun _ => 0) x)) (seq 0 (length pm))) = Ok ls' /\ rcon hc' ls'.
Proof.
  induction pm as [|k pm IH]; intros [|b bs] [|d ds] hc ls L1 L2 Hp Hc H; try discriminate.
  - exists hc, ls. auto.
  - inversion Hp as [|? ? Hk Hp']; subst. destruct (H O ltac:(cbn; lia)) as (t & s & E & Es & Esh & V). cbn [nth] in E, Esh, V. subst b. destruct Hc as [Lc Hc]. destruct (Hc k Hk) as (a & l & A1 & A2 & A3 & ->).
    cbn [acc_con]. rewrite Es. cbn [rbind values]. unfold rnth. rewrite A1. cbn [rbind]. destruct (iadd_ok a (tv s) (Sh k) d (Sh_pos params PO k) A3 Esh V) as (r & Er & Sr & Vr). rewrite Er. cbn [rbind].
    cbn [length seq map]. cbn [acc_grad nth]. unfold upd_at, nth_res. rewrite A2. cbn [rbind]. rewrite flatb1.
    assert (Ev : vec_op R Rplus (entries a) (map d (indices (Sh k))) = Ok (entries r)).
    { unfold vec_op, entries at 1. rewrite !map_length, A3, Nat.eqb_refl. rewrite Vr. unfold entries. now rewrite A3, map2_combine. }
    rewrite Ev. cbn [rbind].
    destruct (IH bs ds (upd_nth k r hc) (upd_nth k (entries r) ls)) as (hc' & ls' & F1 & F2 & F3); [cbn in L1; lia|cbn in L2; lia|exact Hp'| | |].
    + split; [now rewrite upd_nth_len|]. intros i Hi. rewrite !nth_error_upd by (eapply nth_error_lt; eassumption). destruct (Nat.eqb_spec k i) as [<-|N]; [now exists r, (entries r)|auto].
    + intros p Hp1. apply (H (Datatypes.S p)). cbn. lia.
    + exists hc', ls'. split; [exact F1|]. split; [|exact F3]. rewrite <- F2. f_equal. rewrite <- seq_shift, map_map. reflexivity.
Qed.
Lemma rcon_zeros : rcon (map (fun p => mkA (p_shape p) (fun _ => 0)) params) (map (fun p => repeat 0 (length (p_mask p))) params).
Proof.
  split; [apply map_length|]. intros i Hi. do 2 eexists. rewrite !nth_error_map, (nth_error_nth' params noparam Hi). cbn [option_map]. split; [reflexivity|]. split; [reflexivity|]. split; [reflexivity|].
  unfold entries. cbn [shp el]. destruct (nth_params_ok params PO i Hi) as [[_ ->] _]. fold (Sh i). rewrite <- indices_len. induction (indices (Sh i)); cbn; congruence.
Qed.

Lemma con_hessians c : con_at params c -> hesses (tm_fun c) (argc params c) = Ok (map (fun p => map (fun q => res0 (t_hess (tm_fun c) (argc params c) p q)) (seq 0 (Datatypes.S p))) (seq 0 (length (tm_map c)))) /\
  rmapM (rmapM (py OMul (PNum 0))) (map (fun p => map (fun q => res0 (t_hess (tm_fun c) (argc params c) p q)) (seq 0 (Datatypes.S p))) (seq 0 (length (tm_map c)))) =
  Ok (map (fun p => map (fun _ => tzero) (seq 0 (Datatypes.S p))) (seq 0 (length (tm_map c)))).
Proof.
  intros ((_ & _ & Hr) & C & D). assert (T : forall p q, (q <= p < length (tm_map c))%nat -> exists t, t_hess (tm_fun c) (argc params c) p q = Ok (PT t)).
  { intros p q Hpq. apply (cn_hess _ _ _ _ _ C (argc params c) p q); [now apply sub_are; [apply params_are|]|exact D|rewrite sub_axes_len; lia|lia]. }
  split.
  - apply hesses_ok; [apply sub_args_len|]. intros p q Hpq. destruct (T p q Hpq) as (t & E). eauto.
  - assert (Z : forall ls, (forall l v, In l ls -> In v l -> exists t, v = PT t) -> rmapM (rmapM (py OMul (PNum 0))) ls = Ok (map (map (fun _ => tzero)) ls)).
    { intros ls H. apply rmapM_all_ok. intros l Hl. apply rmapM_all_ok. intros v Hv. destruct (H l v Hl Hv) as (t & ->). apply mul0_tensor. }
    rewrite Z.
    + f_equal. rewrite map_map. apply map_ext. intros p. now rewrite map_map.
    + intros l v Hl Hv. apply in_map_iff in Hl as (p & <- & Hp). apply in_map_iff in Hv as (q & <- & Hq). apply in_seq in Hp, Hq. destruct (T p q) as (t & ->); [lia|]. now exists t.
Qed.
Lemma fh_con_sim : forall cs, Forall (con_at params) cs -> forall vs ls, rhess params vs ls ->
  exists vs' ls' hc hl, fh_con params vs (map registration cs) = Ok (vs', hc) /\ flat_hess_con R 0 Rplus Rmult params ls (map (sfc params) cs) = Ok (ls', hl) /\ rhess params vs' ls' /\ Forall2 rcon hc hl.
Proof.
  induction cs as [|c cs IH]; intros Hc vs ls Hg.
  - exists vs, ls, [], []. cbn. auto.
  - inversion Hc as [|? ? C Hc']; subst. pose proof C as ((Ne & As & Hr) & Cn & D). cbn [map]. unfold registration at 1, sfc at 1. cbn [fh_con flat_hess_con].
    rewrite args_at_ok by exact Hr. fold (argc params c). cbn [rbind]. rewrite con_grads by assumption. cbn [rbind]. destruct (con_hessians c C) as [E1 E2]. rewrite E1. cbn [rbind].
    rewrite AssembleProofs.pick_ok by exact Hr. cbn [rbind sf_grad sf_hess].
    set (bs := map (fun p => res0 (t_grad (tm_fun c) (argc params c) p)) (seq 0 (length (tm_map c)))).
    set (ds := map (fun p => tm_der c (argc params c) p) (seq 0 (length (tm_map c)))).
    destruct (acc_con_sim (tm_map c) bs ds (map (fun p => mkA (p_shape p) (fun _ => 0)) params) (map (fun p => repeat 0 (length (p_mask p))) params)) as (hc & hl & F1 & F2 & Hcc); auto.
    { unfold bs. now rewrite map_length, seq_length. } { unfold ds. now rewrite map_length, seq_length. } { apply rcon_zeros. }
    { intros p Hp. unfold bs, ds. rewrite !nth_map_seq by exact Hp. destruct (cn_grad _ _ _ _ _ Cn (argc params c) p) as (t & s & Et & Es & Esh & V); [now apply sub_are; [apply params_are|]|exact D|now rewrite sub_axes_len|].
      rewrite sub_axes_nth in Esh, V by exact Hp. exists t, s. rewrite Et. auto. }
    rewrite F1. cbn [rbind]. rewrite E2. cbn [rbind].
    rewrite (map_ext_in (fun p => flatb (Sh (nth p (tm_map c) O)) [] (fun x _ => tm_der c (argc params c) p x)) (fun p => flatb (Sh (nth p (tm_map c) O)) [] (fun x _ => nth p ds (fun _ => 0) x))).
    2:{ intros p Hp. apply in_seq in Hp. unfold ds. now rewrite nth_map_seq by lia. }
    rewrite F2. cbn [rbind].
    edestruct (acc_hval_sim params OAdd (tm_map c)) with (hs := vs) (hl := ls) (todo := tri_pairs (length (tm_map c))) as (vs1 & ls1 & G1 & G2 & Hg1); [now left|exact As|exact Hr| |exact Hg|apply tri_pairs_lt|].
    2:{ rewrite G1. cbn [opf] in G2. rewrite G2. cbn [rbind]. destruct (IH Hc' vs1 ls1 Hg1) as (vs' & ls' & hc' & hl' & I1 & I2 & I3 & I4). rewrite I1, I2. cbn [rbind].
        exists vs', ls', (hc :: hc'), (hl :: hl'). auto. }
    intros i j Hij. do 4 eexists. split; [apply nth_error_map_seq; lia|]. split; [rewrite nth_error_map, nth_error_map_seq by lia; reflexivity|]. split; [apply nth_error_map_seq; lia|].
    split; [cbn [option_map]; rewrite nth_error_map, nth_error_map_seq by lia; reflexivity|]. apply rb1_zero.
Qed.
Lemma fh_reg_sim : forall rs, Forall (reg_at params) rs -> forall vs ls, rhess params vs ls ->
  exists vs' ls', fh_reg ps vs (map registration rs) = Ok vs' /\ flat_hess_reg R Rminus params ls (map (sfr params) rs) = Ok ls' /\ rhess params vs' ls'.
Proof.
  induction rs as [|c rs IH]; intros Hc vs ls Hg.
  - exists vs, ls. cbn. auto.
  - inversion Hc as [|? ? C Hc']; subst. pose proof C as ((Ne & As & Hr) & Cn & D). cbn [map]. unfold registration at 1, sfr at 1. cbn [fh_reg flat_hess_reg].
    rewrite args_at_ok by exact Hr. fold (argc params c). cbn [rbind]. rewrite AssembleProofs.pick_ok by exact Hr. cbn [rbind sf_hess].
    assert (Bk : forall p q, (q <= p < length (tm_map c))%nat -> t_hess (tm_fun c) (argc params c) p q = Ok (res0 (t_hess (tm_fun c) (argc params c) p q)) /\
       rb1 (Sh (nth p (tm_map c) O)) (Sh (nth q (tm_map c) O)) (res0 (t_hess (tm_fun c) (argc params c) p q))
         (flatb (Sh (nth p (tm_map c) O)) (Sh (nth q (tm_map c) O)) (fun x y => at_res (t_hess (tm_fun c) (argc params c) p q) x y [] []))).
    { intros p q Hpq. pose proof (pn_hess _ _ _ _ Cn (argc params c) p q) as B. rewrite sub_axes_len, !sub_axes_nth in B by lia. specialize (B ltac:(now apply sub_are; [apply params_are|]) D (proj2 Hpq) (proj1 Hpq)).
      apply block_rb1; [now apply Sh_pos|now apply Sh_pos|exact B]. }
    rewrite (hesses_ok _ _ (length (tm_map c))); [|apply sub_args_len|intros p q Hpq; eexists; apply (Bk p q Hpq)]. cbn [rbind].
    edestruct (acc_hval_sim params OSub (tm_map c)) with (hs := vs) (hl := ls) (todo := tri_pairs (length (tm_map c))) as (vs1 & ls1 & G1 & G2 & Hg1); [now right|exact As|exact Hr| |exact Hg|apply tri_pairs_lt|].
    2:{ rewrite G1. cbn [opf] in G2. rewrite G2. cbn [rbind]. now apply IH. }
    intros i j Hij. do 4 eexists. split; [apply nth_error_map_seq; lia|]. split; [apply nth_error_map_seq; lia|]. split; [apply nth_error_map_seq; lia|].
    split; [apply nth_error_map_seq; lia|]. now apply Bk.
Qed.
Lemma cut_sim i j v l : (i < n)%nat -> (j < n)%nat -> rb (Sh i) (Sh j) v l -> cut_value (nth i params noparam) (nth j params noparam) v = cut_block R (nth i params noparam) (nth j params noparam) l.
Proof.
  intros Hi Hj (B & Bk & ->). destruct (blk_values _ _ _ _ Bk) as (a & E & Es & Ee). unfold cut_value. rewrite E. cbn [rbind]. unfold np_bool. rewrite Es. unfold OTSim.Sh. rewrite shape_eqb_refl. unfold cut_block.
  rewrite flatb_len, outer_mask_len. destruct (nth_params_ok params PO i Hi) as [[_ ->] _]. destruct (nth_params_ok params PO j Hj) as [[_ ->] _]. rewrite Nat.eqb_refl, Ee. reflexivity.
Qed.
Definition hlists (e : est) (f : tfun) : list (list (list R)) :=
  map (fun i => map (fun j => flatb (Sh i) (Sh j) (fun x y => at_res (t_hess (loglik e f) ps i j) x y [] [])) (seq 0 (Datatypes.S i))) (seq 0 n).
Lemma like_hess_sim D e f like : likelihood_is ss D e f like -> D ps -> exists y der hs h, t_call f ps = Ok y /\ ders f ps = Ok der /\ hesses f ps = Ok hs /\ e_hess e y der hs = Ok h /\ rhess params h (hlists e f).
Proof.
  intros [_ _ Lh _] Dp. assert (Bk : forall i j, (i < n)%nat -> (j <= i)%nat -> t_hess (loglik e f) ps i j = Ok (res0 (t_hess (loglik e f) ps i j)) /\
     rb (Sh i) (Sh j) (res0 (t_hess (loglik e f) ps i j)) (flatb (Sh i) (Sh j) (fun x y => at_res (t_hess (loglik e f) ps i j) x y [] []))).
  { intros i j Hi Hj. pose proof (Lh ps i j (params_are params PO) Dp) as B. rewrite axes_len, !flat_axes in B. apply block_rb; [now apply Sh_pos|now apply Sh_pos|now apply B]. }
  assert (Hn : (0 < n)%nat) by (destruct PO as [_ N]; destruct params; [congruence|cbn; lia]).
  destruct (Bk O O Hn (le_n 0)) as [E0 _]. cbn [loglik t_hess] in E0. destruct (t_call f ps) as [y|] eqn:Ey; [|discriminate]. cbn [rbind] in E0. destruct (ders f ps) as [der|] eqn:Ed; [|discriminate]. cbn [rbind] in E0.
  destruct (hesses f ps) as [hs|] eqn:Eh; [|discriminate]. cbn [rbind] in E0. destruct (e_hess e y der hs) as [h|] eqn:Eg; [|discriminate]. exists y, der, hs, h. split; [reflexivity|]. split; [reflexivity|]. split; [reflexivity|]. split; [exact Eg|].
  split; [transitivity (length (seq 0 n)); [apply map_length|apply seq_length]|].
  assert (Get : forall i j, t_hess (loglik e f) ps i j = rnth2 h i j) by (intros i j; cbn [loglik t_hess]; rewrite Ey, Ed, Eh; cbn [rbind]; rewrite Eg; reflexivity).
  intros i Hi. destruct (Bk i O Hi ltac:(lia)) as [Ei _]. rewrite Get in Ei. unfold rnth2, rnth in Ei. destruct (nth_error h i) as [r|] eqn:Er; [|discriminate]. exists r. eexists. split; [reflexivity|]. unfold hlists. rewrite nth_error_map_seq by exact Hi. split; [reflexivity|].
  split; [now rewrite map_length, seq_length|]. intros j Hj. destruct (Bk i j Hi Hj) as [Ej Rj]. rewrite nth_error_map_seq by lia. do 2 eexists. split; [|split; [reflexivity|exact Rj]].
  rewrite Get in Ej |- *. unfold rnth2, rnth in Ej |- *. rewrite Er in Ej |- *. cbn [rbind] in Ej |- *. destruct (nth_error r j); [reflexivity|discriminate].
Qed.
Lemma hc_sim hc hl : Forall2 rcon hc hl -> rmapM (fun rowc => rmapM (fun '(d, p) => np_bool d (p_shape p) (map negb (p_mask p))) (combine rowc params)) hc =
  rmapM (fun rowc => rmapM (fun '(d, p) => mask_free R p d) (combine rowc params)) hl.
Proof.
  induction 1 as [|a l hc hl [L H] F IH]; [reflexivity|]. cbn [rmapM]. rewrite IH.
  rewrite (rmapM_combine (fun d (p : param R) => np_bool d (p_shape p) (map negb (p_mask p))) (fun l p => mask_free R p l) noparam params a l L); [reflexivity|].
  intros i Hi. destruct (H i Hi) as (x & y & E1 & E2 & E3 & ->). exists x, (entries x). split; [exact E1|]. split; [exact E2|]. unfold np_bool, mask_free. rewrite E3. unfold OTSim.Sh at 1. rewrite shape_eqb_refl.
  destruct (nth_params_ok params PO i Hi) as [[_ ->] _]. unfold entries at 2. rewrite map_length, indices_len, E3. unfold OTSim.Sh. now rewrite Nat.eqb_refl.
Qed.
Lemma flat_hess_sim D m like cons regs : likelihood_is ss D (m_est m) (m_model m) like -> D ps -> m_con m = map registration cons -> m_reg m = map registration regs ->
  Forall (con_at params) cons -> Forall (reg_at params) regs ->
  flat_hess_t m params = flat_hess R 0 Rplus Rminus Rmult params (hlists (m_est m) (m_model m)) (map (sfc params) cons) (map (sfr params) regs).
Proof.
  intros L Dp Ec Er Hc Hr. destruct (like_hess_sim D _ _ _ L Dp) as (y & der & hs & h & E1 & E2 & E3 & E4 & Hg). unfold flat_hess_t, flat_hess_at, flat_hess. rewrite E1, E2. cbn [rbind]. rewrite E3. cbn [rbind]. rewrite E4. cbn [rbind]. rewrite Ec, Er.
  destruct (fh_con_sim cons Hc _ _ Hg) as (vs1 & ls1 & hc & hl & F1 & F2 & Hg1 & F). rewrite F1, F2. cbn [rbind].
  destruct (fh_reg_sim regs Hr _ _ Hg1) as (vs2 & ls2 & G1 & G2 & Hg2). rewrite G1, G2. cbn [rbind]. destruct Hg2 as [L2 H2].
  assert (Lo : rmapM (fun '(i, pi) => let! row := rnth vs2 i in rmapM (fun '(j, pj) => let! v := rnth row j in cut_value pi pj v) (combine (seq 0 (Datatypes.S i)) params)) (combine (seq 0 n) params) =
    rmapM (fun '(i, pi) => let! row := nth_res ls2 i in rmapM (fun '(j, pj) => let! v := nth_res row j in cut_block R pi pj v) (combine (seq 0 (Datatypes.S i)) params)) (combine (seq 0 n) params)).
  { apply rmapM_ext_in. intros [i pi] Hin. apply (in_combine_seq noparam) in Hin as (_ & Hi & ->). rewrite Nat.sub_0_r in *. destruct (H2 i Hi) as (r & lr & N1 & N2 & N3 & Hrow). unfold rnth at 1, nth_res at 1. rewrite N1, N2. cbn [rbind].
    apply rmapM_ext_in. intros [j pj] Hin. apply (in_combine_seq noparam) in Hin as (Hj & Hj' & ->). rewrite Nat.sub_0_r in *. destruct (Hrow j ltac:(lia)) as (v & l & M1 & M2 & Rb). unfold rnth, nth_res. rewrite M1, M2. cbn [rbind]. now apply cut_sim. }
  rewrite Lo. rewrite (hc_sim hc hl F). rewrite !map_length. destruct cons; reflexivity.
Qed.
End main.
