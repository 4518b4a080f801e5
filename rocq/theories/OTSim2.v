(** flat_grad with Tensors: the assembled gradient. *)
From Verif Require Import Prelude DenseModel AnalyticSpec DenseProofs NDArray NDProofs TensorModel TensorSpec TensorSpecOps TensorLemmas TensorBasic TensorBin FuncModel FuncSpec FTModel FTSpec LTModel LTCell LTSpec LTDer ParamModel ParamProofs AssembleModel AssembleSpec OTModel OTSpec OTBlock OTFlat OTSim.
From Verif Require LTPlain AssembleProofs.
From Coq Require Import Reals Lra Sorted.
Import List ListNotations.
Open Scope R_scope.

Lemma nth_map_seq {A} (f : nat -> A) m p d : (p < m)%nat -> nth p (map f (seq 0 m)) d = f p.
Proof. intros H. rewrite (nth_indep _ d (f O)) by (now rewrite map_length, seq_length). rewrite (map_nth f), seq_nth by exact H. reflexivity. Qed.
Lemma nth_error_map_seq {A} (f : nat -> A) m p : (p < m)%nat -> nth_error (map f (seq 0 m)) p = Some (f p).
Proof. intros H. rewrite (nth_error_nth' _ (f O)) by (now rewrite map_length, seq_length). now rewrite nth_map_seq. Qed.
Lemma blk_tnum c : blk [] [] (PT (tnum c)) (fun _ _ => c).
Proof.
  exists (tnum c). split; [reflexivity|]. split; [constructor; cbn; auto; apply map_ok_nil|]. split; [reflexivity|]. split; [reflexivity|]. split; [reflexivity|].
  intros x y [<-|[]] [<-|[]]. unfold den. cbn. ring.
Qed.
Lemma mul0_tensor t : py OMul (PNum 0) (PT t) = Ok tzero.
Proof. cbn [py]. unfold tbin, reflected, tbin1, tbin_num. destruct (Req_EM_T 0 0) as [_|N]; [reflexivity|congruence]. Qed.
Lemma map_flatb f X Y B : map f (flatb X Y B) = flatb X Y (fun x y => f (B x y)).
Proof. unfold flatb. now rewrite map_map. Qed.
Lemma rb1_zero X Y B : rb1 X Y tzero (map (Rmult 0) (flatb X Y B)).
Proof.
  exists (fun _ _ => 0). split; [right; exists 0; split; [apply blk_tnum|auto]|]. left. rewrite map_flatb. apply flatb_ext. intros; ring.
Qed.
Lemma ascending_sorted pm : StronglySorted lt pm -> ascending pm.
Proof.
  induction pm as [|k pm IH]; intros H p q [Hq Hp]; [cbn in Hp; lia|]. inversion H as [|? ? H1 H2]; subst. destruct p as [|p]; [replace q with O by lia; cbn; lia|].
  destruct q as [|q]; cbn [nth length] in *.
  - rewrite Forall_forall in H2. assert (k < nth p pm O)%nat by (apply H2, nth_In; lia). lia.
  - apply IH; [assumption|lia].
Qed.

Section main.
Variable params : list (param R).
Hypothesis PO : params_ok params.
Notation n := (length params).
Notation ss := (axes params).
Notation ps := (map arr_of params).
Notation Sh := (Sh params).

Lemma axes_len : length ss = n.
Proof. apply map_length. Qed.
Lemma flat_axes i : flat (nth i ss ([], [])) = Sh i.
Proof.
  unfold axes, Sh. destruct (Nat.lt_ge_cases i n) as [H|H].
  - rewrite (nth_indep _ ([], []) ((fun p : param R => (p_shape p, @nil nat)) noparam)) by (now rewrite map_length). rewrite (map_nth (fun p : param R => (p_shape p, @nil nat))). unfold flat. cbn. apply app_nil_r.
  - rewrite !nth_overflow by (rewrite ?map_length; lia). reflexivity.
Qed.
Lemma nth_params_ok i : (i < n)%nat -> param_wf (nth i params noparam) /\ posl (Sh i).
Proof. intros H. destruct PO as [F _]. rewrite Forall_forall in F. apply (F (nth i params noparam)). now apply nth_In. Qed.
Lemma Sh_pos i : posl (Sh i).
Proof.
  destruct (Nat.lt_ge_cases i n) as [H|H]; [now apply nth_params_ok|]. unfold Sh. rewrite nth_overflow by lia. constructor.
Qed.
Lemma size_Sh i : (i < n)%nat -> size_of params i = prodn (Sh i).
Proof. intros H. unfold size_of. apply (nth_params_ok i H). Qed.
Lemma args_at_ok pm : Forall (fun k => k < n)%nat pm -> args_at ps pm = Ok (sub_args pm ps).
Proof.
  intros H. unfold args_at. unfold sub_args, sel_at. apply rmapM_all_ok. intros k Hk. rewrite Forall_forall in H. specialize (H k Hk). unfold rnth. rewrite (nth_error_nth' ps (PNum 0)) by (now rewrite map_length). reflexivity.
Qed.
Lemma sub_args_len pm : length (sub_args pm ps) = length pm.
Proof. apply map_length. Qed.
Lemma sub_axes_nth pm p : (p < length pm)%nat -> flat (nth p (sub_axes pm ss) ([], [])) = Sh (nth p pm O).
Proof.
  intros H. unfold sub_axes, sel_at. rewrite (nth_indep _ ([], []) ((fun k => nth k ss ([], [])) O)) by (now rewrite map_length). rewrite (map_nth (fun k => nth k ss ([], []))). apply flat_axes.
Qed.
Lemma arr_of_par p : param_wf p -> posl (p_shape p) -> is_par (p_shape p, []) (arr_of p).
Proof. intros W P. split; [|exact I]. unfold arr_of, has_st. cbn. auto. Qed.
Lemma params_are : are_pars ss ps.
Proof.
  unfold are_pars, axes. destruct PO as [F _]. clear PO. induction F as [|p l [W P] F IH]; [constructor|]. cbn [map]. constructor; [now apply arr_of_par|exact IH].
Qed.
Lemma sub_are pm l : are_pars ss l -> Forall (fun k => k < n)%nat pm -> are_pars (sub_axes pm ss) (sub_args pm l).
Proof.
  intros A H. unfold are_pars, sub_axes, sub_args, sel_at. induction H as [|k pm Hk H IH]; [constructor|]. cbn [map]. constructor; [|exact IH].
  rewrite <- axes_len in Hk. clear -A Hk. revert k Hk. induction A as [|p s l ss0 H A IH]; intros k Hk; [cbn in Hk; lia|]. destruct k as [|k]; [exact H|]. cbn [nth]. apply IH. cbn in Hk. lia.
Qed.
Lemma sub_axes_len pm : length (sub_axes pm ss) = length pm.
Proof. apply map_length. Qed.

Lemma rblocks_nth : forall pm bs bl, length bs = length pm -> length bl = length pm ->
  (forall p, (p < length pm)%nat -> rb1 (Sh (nth p pm O)) [] (nth p bs (PNum 0)) (nth p bl [])) -> rblocks params pm bs bl.
Proof.
  induction pm as [|k pm IH]; intros [|b bs] [|l bl] L1 L2 H; try discriminate; [exact I|]. cbn [rblocks]. split; [apply (H O); cbn; lia|].
  apply IH; [cbn in L1; lia|cbn in L2; lia|]. intros p Hp. apply (H (Datatypes.S p)). cbn. lia.
Qed.
Lemma ders_ok h args m : length args = m -> (forall p, (p < m)%nat -> exists v, t_grad h args p = Ok v) -> ders h args = Ok (map (fun p => res0 (t_grad h args p)) (seq 0 m)).
Proof.
  intros L H. unfold ders. rewrite L. apply rmapM_all_ok. intros p Hp. apply in_seq in Hp. destruct (H p) as (v & E); [lia|]. now rewrite E.
Qed.
Lemma hesses_ok h args m : length args = m -> (forall p q, (q <= p < m)%nat -> exists v, t_hess h args p q = Ok v) ->
  hesses h args = Ok (map (fun p => map (fun q => res0 (t_hess h args p q)) (seq 0 (Datatypes.S p))) (seq 0 m)).
Proof.
  intros L H. unfold hesses. rewrite L. apply rmapM_all_ok. intros p Hp. apply in_seq in Hp. apply rmapM_all_ok. intros q Hq. apply in_seq in Hq. destruct (H p q) as (v & E); [lia|]. now rewrite E.
Qed.

(** *** the functions, read as lists of entries *)
Definition argc (c : term) : list pval := sub_args (tm_map c) ps.
Definition sfc (c : term) : list nat * sfunc R := (tm_map c,
  {| sf_val := fun _ => Ok (term_at ps c);
     sf_grad := fun _ => Ok (map (fun p => flatb (Sh (nth p (tm_map c) O)) [] (fun x _ => tm_der c (argc c) p x)) (seq 0 (length (tm_map c))));
     sf_hess := fun _ => Ok (map (fun p => map (fun q => flatb (Sh (nth p (tm_map c) O)) (Sh (nth q (tm_map c) O)) (fun _ _ => 0)) (seq 0 (Datatypes.S p))) (seq 0 (length (tm_map c)))) |}).
Definition sfr (c : term) : list nat * sfunc R := (tm_map c,
  {| sf_val := fun _ => Ok (term_at ps c);
     sf_grad := fun _ => Ok (map (fun p => flatb (Sh (nth p (tm_map c) O)) [] (fun x _ => at_res (t_grad (tm_fun c) (argc c) p) x [] [] [])) (seq 0 (length (tm_map c))));
     sf_hess := fun _ => Ok (map (fun p => map (fun q => flatb (Sh (nth p (tm_map c) O)) (Sh (nth q (tm_map c) O)) (fun x y => at_res (t_hess (tm_fun c) (argc c) p q) x y [] [])) (seq 0 (Datatypes.S p))) (seq 0 (length (tm_map c)))) |}).
Definition in_maps (c : term) : Prop := tm_map c <> [] /\ ascending (tm_map c) /\ Forall (fun k => k < n)%nat (tm_map c).
Definition con_at (c : term) : Prop := in_maps c /\ constraint (sub_axes (tm_map c) ss) (tm_dom c) (tm_fun c) (tm_val c) (tm_der c) /\ tm_dom c (argc c).
Definition reg_at (c : term) : Prop := in_maps c /\ penalty (sub_axes (tm_map c) ss) (tm_dom c) (tm_fun c) (tm_val c) /\ tm_dom c (argc c).

Lemma con_grads c : con_at c -> ders (tm_fun c) (argc c) = Ok (map (fun p => res0 (t_grad (tm_fun c) (argc c) p)) (seq 0 (length (tm_map c)))).
Proof.
  intros ((_ & _ & Hr) & C & D). apply ders_ok; [apply sub_args_len|]. intros p Hp.
  destruct (cn_grad _ _ _ _ _ C (argc c) p) as (t & s & E & _); [now apply sub_are; [apply params_are|]|exact D|now rewrite sub_axes_len|]. eauto.
Qed.
Lemma con_zeros c : con_at c -> rmapM (py OMul (PNum 0)) (map (fun p => res0 (t_grad (tm_fun c) (argc c) p)) (seq 0 (length (tm_map c)))) = Ok (map (fun _ => tzero) (seq 0 (length (tm_map c)))).
Proof.
  intros ((_ & _ & Hr) & C & D). transitivity (Ok (map (fun _ : pval => tzero) (map (fun p => res0 (t_grad (tm_fun c) (argc c) p)) (seq 0 (length (tm_map c)))))); [|now rewrite map_map].
  apply rmapM_all_ok. intros v Hv. apply in_map_iff in Hv as (p & <- & Hp). apply in_seq in Hp.
  destruct (cn_grad _ _ _ _ _ C (argc c) p) as (t & s & E & _); [now apply sub_are; [apply params_are|]|exact D|rewrite sub_axes_len; lia|]. rewrite E. apply mul0_tensor.
Qed.
Lemma fg_con_sim : forall cs, Forall con_at cs -> forall vs ls, rgrad params vs ls ->
  exists vs' ls' cv cl, fg_con ps vs (map registration cs) = Ok (vs', cv) /\ flat_grad_con R 0 Rplus Rmult params ls (map sfc cs) = Ok (ls', cl) /\ rgrad params vs' ls' /\
    Forall2 (fun a b => exists v x, a = Some v /\ b = Some x /\ pyfloat v = Ok x) cv cl.
Proof.
  induction cs as [|c cs IH]; intros Hc vs ls Hg.
  - exists vs, ls, [], []. cbn. auto.
  - inversion Hc as [|? ? C Hc']; subst. pose proof C as ((Ne & _ & Hr) & Cn & D). cbn [map]. unfold registration at 1, sfc at 1. cbn [fg_con flat_grad_con].
    rewrite args_at_ok by exact Hr. fold (argc c). cbn [rbind]. rewrite con_grads by exact C. cbn [rbind]. rewrite con_zeros by exact C. cbn [rbind].
    rewrite AssembleProofs.pick_ok by exact Hr. cbn [rbind sf_grad sf_val].
    destruct (acc_val_sim params OAdd (or_introl eq_refl) (tm_map c) (map (fun _ => tzero) (seq 0 (length (tm_map c))))
        (map (map (Rmult 0)) (map (fun p => flatb (Sh (nth p (tm_map c) O)) [] (fun x _ => tm_der c (argc c) p x)) (seq 0 (length (tm_map c))))) vs ls Hg Hr) as (vs1 & ls1 & E1 & E2 & Hg1).
    { apply rblocks_nth; [now rewrite map_length, seq_length|now rewrite !map_length, seq_length|]. intros p Hp. rewrite map_map, !nth_map_seq by exact Hp. apply rb1_zero. }
    rewrite E1. cbn [opf] in E2. rewrite E2. cbn [rbind].
    destruct (cn_value _ _ _ _ _ Cn (argc c)) as (v & Ev & Fv); [now apply sub_are; [apply params_are|]|exact D|].
    destruct (IH Hc' vs1 ls1 Hg1) as (vs' & ls' & cv & cl & E3 & E4 & Hg' & F). 
    destruct (tm_map c) as [|k pm] eqn:Em; [congruence|]. rewrite Ev. cbn [rmap rbind]. rewrite E3, E4. cbn [rbind].
    do 4 eexists. split; [reflexivity|]. split; [reflexivity|]. split; [exact Hg'|]. constructor; [|exact F]. do 2 eexists. split; [reflexivity|]. split; [reflexivity|].
    unfold term_at. rewrite Em. unfold argc in Fv. rewrite Em in Fv. exact Fv.
Qed.
(** a block given by its entries *)
Lemma block_rb X Y r : posl X -> posl Y -> is_block r X Y (fun x y => at_res r x y [] []) -> r = Ok (res0 r) /\ rb X Y (res0 r) (flatb X Y (fun x y => at_res r x y [] [])).
Proof.
  intros PX PY B. assert (E : r = Ok (res0 r)) by (destruct B as (t & -> & _); reflexivity). split; [exact E|]. rewrite E in B at 1. exists (fun x y => at_res r x y [] []). split; [|reflexivity]. apply block_blk; assumption.
Qed.
Lemma block_rb1 X Y r : posl X -> posl Y -> is_block r X Y (fun x y => at_res r x y [] []) \/ r = Ok tzero -> r = Ok (res0 r) /\ rb1 X Y (res0 r) (flatb X Y (fun x y => at_res r x y [] [])).
Proof.
  intros PX PY [B| ->].
  - destruct (block_rb X Y r PX PY B) as [E (C & K & Ef)]. split; [exact E|]. exists C. split; [now left|]. now left.
  - split; [reflexivity|]. exists (fun _ _ => 0). split; [right; exists 0; split; [apply blk_tnum|auto]|]. left. apply flatb_ext. intros x y _ _. unfold at_res, get, tzero. cbn. ring.
Qed.
Lemma fg_reg_sim : forall rs, Forall reg_at rs -> forall vs ls, rgrad params vs ls ->
  exists vs' ls', fg_reg ps vs (map registration rs) = Ok vs' /\ flat_grad_reg R Rminus params ls (map sfr rs) = Ok ls' /\ rgrad params vs' ls'.
Proof.
  induction rs as [|c rs IH]; intros Hc vs ls Hg.
  - exists vs, ls. cbn. auto.
  - inversion Hc as [|? ? C Hc']; subst. pose proof C as ((Ne & _ & Hr) & Cn & D). cbn [map]. unfold registration at 1, sfr at 1. cbn [fg_reg flat_grad_reg].
    rewrite args_at_ok by exact Hr. fold (argc c). cbn [rbind]. rewrite AssembleProofs.pick_ok by exact Hr. cbn [rbind sf_grad].
    assert (Bk : forall p, (p < length (tm_map c))%nat -> t_grad (tm_fun c) (argc c) p = Ok (res0 (t_grad (tm_fun c) (argc c) p)) /\
       rb1 (Sh (nth p (tm_map c) O)) [] (res0 (t_grad (tm_fun c) (argc c) p)) (flatb (Sh (nth p (tm_map c) O)) [] (fun x _ => at_res (t_grad (tm_fun c) (argc c) p) x [] [] []))).
    { intros p Hp. pose proof (pn_grad _ _ _ _ Cn (argc c) p) as B. rewrite sub_axes_len, sub_axes_nth in B by exact Hp. specialize (B ltac:(now apply sub_are; [apply params_are|]) D Hp).
      rewrite (flatb_ext _ _ _ (fun x y => at_res (t_grad (tm_fun c) (argc c) p) x y [] [])) by (intros x y _ [<-|[]]; reflexivity).
      apply block_rb1; [apply Sh_pos|constructor|]. left. destruct B as (t & E & Ax & M1 & M2 & Es & V). exists t. repeat (split; [assumption|]). intros x y Hx [<-|[]]. apply V; [exact Hx|now left]. }
    rewrite (ders_ok _ _ (length (tm_map c))); [|apply sub_args_len|intros p Hp; eexists; apply (Bk p Hp)]. cbn [rbind].
    destruct (acc_val_sim params OSub (or_intror eq_refl) (tm_map c) (map (fun p => res0 (t_grad (tm_fun c) (argc c) p)) (seq 0 (length (tm_map c))))
        (map (fun p => flatb (Sh (nth p (tm_map c) O)) [] (fun x _ => at_res (t_grad (tm_fun c) (argc c) p) x [] [] [])) (seq 0 (length (tm_map c)))) vs ls Hg Hr) as (vs1 & ls1 & E1 & E2 & Hg1).
    { apply rblocks_nth; [now rewrite map_length, seq_length|now rewrite !map_length, seq_length|]. intros p Hp. rewrite !nth_map_seq by exact Hp. now apply Bk. }
    rewrite E1. cbn [opf] in E2. rewrite E2. cbn [rbind]. now apply IH.
Qed.
Lemma free_sim i v l : (i < n)%nat -> rb (Sh i) [] v l -> free_values v (nth i params noparam) = mask_free R (nth i params noparam) l.
Proof.
  intros Hi (B & Bk & ->). destruct (blk_values _ _ _ _ Bk) as (a & E & Es & Ee). unfold free_values. rewrite E. cbn [rbind]. unfold np_bool. rewrite Es, app_nil_r, shape_eqb_refl. unfold mask_free.
  rewrite flatb_len. destruct (nth_params_ok i Hi) as [[_ ->] _]. rewrite Ee. change (prodn []) with 1%nat. rewrite Nat.mul_1_r. fold (Sh i). now rewrite Nat.eqb_refl.
Qed.
Lemma rmapM_combine {A B X Y} (f : A -> X -> res Y) (g : B -> X -> res Y) d : forall (xs : list X) (vs : list A) (ls : list B), length ls = length xs ->
  (forall i, (i < length xs)%nat -> exists v l, nth_error vs i = Some v /\ nth_error ls i = Some l /\ f v (nth i xs d) = g l (nth i xs d)) ->
  rmapM (fun '(a, x) => f a x) (combine vs xs) = rmapM (fun '(b, x) => g b x) (combine ls xs).
Proof.
  induction xs as [|x xs IH]; intros vs ls L H; [destruct vs, ls; reflexivity|]. destruct ls as [|l ls]; [discriminate|]. destruct (H O) as (v & l' & E1 & E2 & E3); [cbn; lia|].
  destruct vs as [|v' vs]; [discriminate|]. cbn in E1, E2, E3. injection E1 as ->. injection E2 as ->. cbn [combine rmapM]. rewrite E3. destruct (g l' x); [|reflexivity]. cbn [rbind].
  rewrite (IH vs ls); [reflexivity|cbn in L; lia|]. intros i Hi. apply (H (Datatypes.S i)). cbn. lia.
Qed.
Lemma cvs_sim cv cl : Forall2 (fun a b => exists v x, a = Some v /\ b = Some x /\ pyfloat v = Ok x) cv cl ->
  rmapM con_entry cv = rmapM (fun o => match o with Some x => Ok [x] | None => Raise ValueError end) cl.
Proof.
  induction 1 as [|a b cv cl (v & x & -> & -> & E) F IH]; [reflexivity|]. cbn [rmapM con_entry]. rewrite E. cbn [rmap rbind]. now rewrite IH.
Qed.
(** the gradient of the likelihood as lists of entries *)
Definition glists (e : est) (f : tfun) : list (list R) := map (fun i => flatb (Sh i) [] (fun x _ => at_res (t_grad (loglik e f) ps i) x [] [] [])) (seq 0 n).
Lemma like_grad_sim D e f like : likelihood_is ss D e f like -> D ps -> exists y der g, t_call f ps = Ok y /\ ders f ps = Ok der /\ e_grad e y der = Ok g /\ rgrad params g (glists e f).
Proof.
  intros [_ Lg _ _] Dp. assert (Bk : forall i, (i < n)%nat -> t_grad (loglik e f) ps i = Ok (res0 (t_grad (loglik e f) ps i)) /\ rb (Sh i) [] (res0 (t_grad (loglik e f) ps i)) (flatb (Sh i) [] (fun x _ => at_res (t_grad (loglik e f) ps i) x [] [] []))).
  { intros i Hi. pose proof (Lg ps i params_are Dp) as B. rewrite axes_len, flat_axes in B. specialize (B Hi).
    rewrite (flatb_ext _ _ _ (fun x y => at_res (t_grad (loglik e f) ps i) x y [] [])) by (intros x y _ [<-|[]]; reflexivity).
    apply block_rb; [apply Sh_pos|constructor|]. destruct B as (t & E & Ax & M1 & M2 & Es & V). exists t. repeat (split; [assumption|]). intros x y Hx [<-|[]]. apply V; [exact Hx|now left]. }
  assert (Hn : (0 < n)%nat) by (destruct PO as [_ N]; destruct params; [congruence|cbn; lia]).
  destruct (Bk O Hn) as [E0 _]. cbn [loglik t_grad] in E0. destruct (t_call f ps) as [y|] eqn:Ey; [|discriminate]. cbn [rbind] in E0. destruct (ders f ps) as [der|] eqn:Ed; [|discriminate]. cbn [rbind] in E0.
  destruct (e_grad e y der) as [g|] eqn:Eg; [|discriminate]. exists y, der, g. split; [reflexivity|]. split; [reflexivity|]. split; [exact Eg|]. split; [transitivity (length (seq 0 n)); [apply map_length|apply seq_length]|].
  intros i Hi. unfold glists. rewrite nth_error_map_seq by exact Hi. destruct (Bk i Hi) as [Ei Ri]. exists (res0 (t_grad (loglik e f) ps i)). eexists. split; [|split; [reflexivity|exact Ri]].
  cbn [loglik t_grad] in Ei |- *. rewrite Ey, Ed in Ei |- *. cbn [rbind] in Ei |- *. rewrite Eg in Ei |- *. cbn [rbind] in Ei |- *. unfold rnth in Ei |- *. destruct (nth_error g i); [reflexivity|discriminate].
Qed.
Lemma flat_grad_sim D m like cons regs : likelihood_is ss D (m_est m) (m_model m) like -> D ps -> m_con m = map registration cons -> m_reg m = map registration regs ->
  Forall con_at cons -> Forall reg_at regs -> flat_grad_t m params = flat_grad R 0 Rplus Rminus Rmult params (glists (m_est m) (m_model m)) (map sfc cons) (map sfr regs).
Proof.
  intros L Dp Ec Er Hc Hr. destruct (like_grad_sim D _ _ _ L Dp) as (y & der & g & E1 & E2 & E3 & Hg). unfold flat_grad_t, flat_grad_at, flat_grad. rewrite E1, E2. cbn [rbind]. rewrite E3. cbn [rbind]. rewrite Ec, Er.
  destruct (fg_con_sim cons Hc _ _ Hg) as (vs1 & ls1 & cv & cl & F1 & F2 & Hg1 & F). rewrite F1, F2. cbn [rbind].
  destruct (fg_reg_sim regs Hr _ _ Hg1) as (vs2 & ls2 & G1 & G2 & Hg2). rewrite G1, G2. cbn [rbind].
  destruct Hg2 as [L2 H2]. rewrite (rmapM_combine free_values (fun l p => mask_free R p l) noparam params vs2 ls2 L2).
  - now rewrite (cvs_sim cv cl F).
  - intros i Hi. destruct (H2 i Hi) as (v & l & N1 & N2 & Rb). exists v, l. split; [exact N1|]. split; [exact N2|]. now apply free_sim.
Qed.
End main.
