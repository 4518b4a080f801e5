(** Every Product of Tensor functions has right derivatives. *)
From Verif Require Import Prelude DenseModel AnalyticSpec DenseProofs NDArray NDProofs TensorModel TensorSpec TensorSpecOps TensorLemmas TensorBasic TensorSum TensorSumMain TensorBin TensorArith TensorShape TensorExpand TensorGeneric TensorGSum TensorGUni TensorDotCore TensorDot TensorUfunc TensorUfuncP FuncModel FuncSpec FTModel FTSpec FTRep FTRep2 FTRep3 FTVal FTRefine LTModel LTPlain LTProd LTOuter FTSum FTBuilt ETModel ETRefine PTModel PTMix PTProduct.
From Verif Require FuncPrim FuncCompose FuncLemmas FuncAffine FuncSum FuncProduct.
From Coquelicot Require Import Coquelicot.
From Coq Require Import Reals Lra.
Import List ListNotations.
Open Scope R_scope.
Section ex.
Context {ex : exdims}.

(** a Tensor function whose results have the entries of a dense function with
    right derivatives has right derivatives *)
Theorem reads_correct ss out D f sf : correct ss out (Dd ss D) sf ->
  (forall ps, are_pars ss ps -> D ps -> exists v, t_call f ps = Ok v /\ forall n d, In n (indices (fst out)) -> In d (indices (snd out)) -> get (vden v) [] [] n d = get (val (f_call sf (map vden ps))) [] [] n d) ->
  (forall ps i, are_pars ss ps -> D ps -> (i < length ss)%nat -> exists v, t_grad f ps i = Ok v /\ forall x n d, In x (indices (flat (nth i ss ([], [])))) -> In n (indices (fst out)) -> In d (indices (snd out)) ->
    get (vden v) x [] n d = get (val (f_grad sf (map vden ps) i)) x [] n d) ->
  (forall ps i j, are_pars ss ps -> D ps -> (i < length ss)%nat -> (j <= i)%nat -> exists v, t_hess f ps i j = Ok v /\
    forall x y n d, In x (indices (flat (nth i ss ([], [])))) -> In y (indices (flat (nth j ss ([], [])))) -> In n (indices (fst out)) -> In d (indices (snd out)) ->
    get (vden v) x y n d = get (val (f_hess sf (map vden ps) i j)) x y n d) ->
  t_correct ss out D f.
Proof.
  intros C Rc Rg Rh.
  assert (Vg : forall ps i x n d, are_pars ss ps -> D ps -> (i < length ss)%nat -> In x (indices (flat (nth i ss ([], [])))) -> In n (indices (fst out)) -> In d (indices (snd out)) ->
    at_res (t_grad f ps i) x [] n d = get (val (f_grad sf (map vden ps) i)) x [] n d).
  { intros ps i x n d Pp d0 Hi Hx Hn Hd. destruct (Rg ps i Pp d0 Hi) as (v & Ev & V). unfold at_res. rewrite Ev. cbn [res0]. now apply V. }
  assert (Vh : forall ps i j x y n d, are_pars ss ps -> D ps -> (i < length ss)%nat -> (j <= i)%nat -> In x (indices (flat (nth i ss ([], [])))) -> In y (indices (flat (nth j ss ([], [])))) -> In n (indices (fst out)) -> In d (indices (snd out)) ->
    at_res (t_hess f ps i j) x y n d = get (val (f_hess sf (map vden ps) i j)) x y n d).
  { intros ps i j x y n d Pp d0 Hi Hj Hx Hy Hn Hd. destruct (Rh ps i j Pp d0 Hi Hj) as (v & Ev & V). unfold at_res. rewrite Ev. cbn [res0]. now apply V. }
  assert (Vc : forall ps n d, are_pars ss ps -> D ps -> In n (indices (fst out)) -> In d (indices (snd out)) -> at_res (t_call f ps) [] [] n d = get (val (f_call sf (map vden ps))) [] [] n d).
  { intros ps n d Pp d0 Hn Hd. destruct (Rc ps Pp d0) as (v & Ev & V). unfold at_res. rewrite Ev. cbn [res0]. now apply V. }
  assert (Pe : forall G G' v, (forall i x, (i < length ss)%nat -> In x (indices (flat (nth i ss ([], [])))) -> G i x = G' i x) -> pairing ss G v = pairing ss G' v).
  { intros G G' v H. unfold pairing. apply Rsum_ext. intros i Hi. apply in_seq in Hi. apply Rsum_ext. intros x Hx. f_equal. apply H; [lia|exact Hx]. }
  constructor.
  - intros ps Pp d. split; [|split].
    + destruct (Rc ps Pp d) as (v & Ev & _). now exists v.
    + intros i Hi. destruct (Rg ps i Pp d Hi) as (v & Ev & _). now exists v.
    + intros i j Hi Hj. destruct (Rh ps i j Pp d Hi Hj) as (v & Ev & _). now exists v.
  - intros c v t Hc Ld n d Hn Hd. pose proof (locally_singleton _ _ Ld) as d0. pose proof (proj1 Hc) as Pc.
    rewrite (Pe _ (fun i x => get (val (f_grad sf (map vden (c t)) i)) x [] n d)) by (intros i x Hi Hx; now apply Vg).
    eapply is_derive_ext_loc; [|exact (c_grad _ _ _ _ C _ v t (curve_dense _ _ _ _ Hc) (are_pars_Dd _ _ _ (Pc t) d0) n d Hn Hd)].
    eapply filter_imp; [|exact Ld]. intros s ds. cbn beta. symmetry. now apply Vc.
  - intros c v t Hc Ld i x n d Hi Hx Hn Hd. pose proof (locally_singleton _ _ Ld) as d0. pose proof (proj1 Hc) as Pc.
    rewrite (Pe _ (fun j y => hess_at sf (map vden (c t)) i j x y n d)).
    2:{ intros j y Hj Hy. unfold t_hess_at, hess_at. destruct (Nat.leb_spec j i); apply Vh; auto; lia. }
    eapply is_derive_ext_loc; [|exact (c_hess _ _ _ _ C _ v t (curve_dense _ _ _ _ Hc) (are_pars_Dd _ _ _ (Pc t) d0) i x n d Hi Hx Hn Hd)].
    eapply filter_imp; [|exact Ld]. intros s ds. cbn beta. symmetry. now apply Vg.
  - intros ps i x y n d Pp d0 Hi Hx Hy Hn Hd. rewrite !Vh by auto. pose proof (c_sym _ _ _ _ C (map vden ps) i (proj1 (proj2 (are_pars_prms _ _ Pp))) Hi) as S. exact (S x y n d).
Qed.


(** the factors of a Product: shapes, domains and what is known of them *)
Record factors (ss : list pst) (D : list pval -> Prop) (ats : list tatom) : Prop := mkFactors {
  fc_pos : Forall (fun s => posl (flat s)) ss;
  fc_ne : ats <> [];
  fc_bc : broadcastable (map ta_o ats);
  fc_ns : flat (join (map ta_o ats)) <> [];
  fc_dr : Forall (fun a => DR (snd (ta_o a)) (snd (join (map ta_o ats)))) ats;
  fc_mf : Forall (fun a => forall f, In f (ta_mf a) -> nth f (fst (ta_o a)) 1%nat = nth f (fst (join (map ta_o ats))) 1%nat) ats;
  fc_built : forall a, In a ats -> tbuilt ss (ta_o a) D (ta_mf a) (ta_dep a) (ta_col a) (ta_f a) }.

Theorem product_t_correct ss D ats : factors ss D ats -> t_correct ss (join (map ta_o ats)) D (t_product (map ta_f ats)).
Proof.
  intros [Pss Ne Bc NJ Dr Mf Bt].
  destruct (choose_atoms (fun a s => correct ss (ta_o a) (Dd ss D) s /\ hess_both ss (ta_o a) s /\ refines ss (ta_o a) (Dd ss D) (ta_mf a) (ta_dep a) (ta_col a) (ta_f a) s) ats) as (l & Fl).
  { intros a Ha. exact (tbuilt_dense _ _ _ _ _ _ _ (Bt a Ha)). }
  pose proof (Forall2_length' _ _ _ Fl) as L. set (az := zip_atoms ats l).
  assert (Eo : map a_o az = map ta_o ats) by (apply zip_map; auto).
  assert (Et : map a_t az = map ta_f ats) by (apply zip_map; auto).
  assert (Ca : Forall (fun a => correct ss (a_o a) (Dd ss D) (a_s a)) az) by (apply (zip_forall _ _ _ _ Fl); intros a s _ Q; apply Q).
  assert (Ra : Forall (fun a => refines ss (a_o a) (Dd ss D) (a_mf a) (a_dep a) (a_col a) (a_t a) (a_s a)) az) by (apply (zip_forall _ _ _ _ Fl); intros a s _ Q; apply Q).
  rewrite <- Eo in Bc, NJ, Dr, Mf |- *. rewrite <- Et.
  assert (Ne' : az <> []) by (intros E; apply Ne; destruct ats; [reflexivity|]; destruct l; [discriminate|]; discriminate E).
  assert (Dr' : Forall (fun a => DR (snd (a_o a)) (snd (join (map a_o az)))) az) by (apply (zip_forall _ _ _ _ Fl); intros a s Ha _; cbn [a_o]; exact (proj1 (Forall_forall _ _) Dr a Ha)).
  assert (Mf' : Forall (fun a => forall f, In f (a_mf a) -> nth f (fst (a_o a)) 1%nat = nth f (fst (join (map a_o az))) 1%nat) az) by (apply (zip_forall _ _ _ _ Fl); intros a s Ha _; cbn [a_mf a_o]; exact (proj1 (Forall_forall _ _) Mf a Ha)).
  clearbody az. clear Eo Et Fl L.
  assert (Ws : Forall2 (fun a o => wellformed ss o a) (map a_s az) (map a_o az)) by (eapply Wos; eassumption).
  assert (Nf : map a_s az <> []) by (destruct az; [congruence|discriminate]).
  apply (reads_correct ss (join (map a_o az)) D _ (s_product (map a_s az))).
  - apply FuncProduct.product_correct; auto. intros k Hk. rewrite map_length in Hk.
    rewrite (nth_indep _ FuncCompose.fnull (a_s dflt)), (nth_indep (map a_o az) ([], []) (a_o dflt)) by now rewrite map_length.
    rewrite !map_nth. apply (proj1 (Forall_forall _ _) Ca). now apply nth_In.
  - intros ps Pp d. destruct (product_call_mc ss (Dd ss D) az Ne' Bc NJ Dr' Ca Ra Mf' ps (map vden ps) (are_pars_prms _ _ Pp) (are_pars_Dd _ _ _ Pp d)) as (v & Ev & _ & V).
    exists v. split; [exact Ev|]. intros n d0 Hn Hd. destruct (FuncProduct.product_call_ok ss (map a_o az) (map a_s az) Ws Bc (map vden ps) Nf (proj1 (proj2 (are_pars_prms _ _ Pp)))) as (w & Ew & _ & W).
    rewrite Ew. cbn [val]. rewrite W. rewrite map_length. exact (V n d0 Hn Hd).
  - intros ps i Pp d Hi. destruct (product_grad_mc ss (Dd ss D) az Pss Ne' Bc NJ Dr' Ca Ra Mf' ps (map vden ps) (are_pars_prms _ _ Pp) (are_pars_Dd _ _ _ Pp d) i Hi) as (v & Ev & _ & V).
    exists v. split; [exact Ev|]. intros x n d0 Hx Hn Hd. destruct (FuncProduct.product_grad_ok ss (map a_o az) (map a_s az) Ws Bc (map vden ps) i (proj1 (proj2 (are_pars_prms _ _ Pp))) Hi) as (w & Ew & _ & W).
    rewrite Ew. cbn [val]. rewrite W. exact (V x n d0 Hx Hn Hd).
  - intros ps i j Pp d Hi Hj. destruct (product_hess_mc ss (Dd ss D) az Pss Ne' Bc NJ Dr' Ca Ra Mf' ps (map vden ps) (are_pars_prms _ _ Pp) (are_pars_Dd _ _ _ Pp d) i j Hi Hj) as (v & Ev & _ & V).
    exists v. split; [exact Ev|]. intros x y n d0 Hx Hy Hn Hd. destruct (FuncProduct.product_hess_ok ss (map a_o az) (map a_s az) Ws Bc (map vden ps) i j (proj1 (proj2 (are_pars_prms _ _ Pp))) Hi Hj) as (w & Ew & _ & W).
    rewrite Ew. cbn [val]. rewrite W. apply V. repeat split; auto.
Qed.
End ex.

(** the value: the product of the values of the factors, with numpy broadcasting *)
Theorem product_value {ex : exdims} ss D ats ps n d : factors ss D ats -> are_pars ss ps -> D ps ->
  In n (indices (fst (join (map ta_o ats)))) -> In d (indices (snd (join (map ta_o ats)))) ->
  at_res (t_call (t_product (map ta_f ats)) ps) [] [] n d = fold_right Rmult 1 (map (fun a => at_res (t_call (ta_f a) ps) [] [] n d) ats).
Proof.
  intros [Pss Ne Bc NJ Dr Mf Bt] Ap d0 Hn Hd.
  destruct (choose_atoms (fun a s => correct ss (ta_o a) (Dd ss D) s /\ hess_both ss (ta_o a) s /\ refines ss (ta_o a) (Dd ss D) (ta_mf a) (ta_dep a) (ta_col a) (ta_f a) s) ats) as (l & Fl).
  { intros a Ha. exact (tbuilt_dense _ _ _ _ _ _ _ (Bt a Ha)). }
  pose proof (Forall2_length' _ _ _ Fl) as L. set (az := zip_atoms ats l).
  assert (Eo : map a_o az = map ta_o ats) by (apply zip_map; auto).
  assert (Et : map a_t az = map ta_f ats) by (apply zip_map; auto).
  assert (Ca : Forall (fun a => correct ss (a_o a) (Dd ss D) (a_s a)) az) by (apply (zip_forall _ _ _ _ Fl); intros a s _ Q; apply Q).
  assert (Ra : Forall (fun a => refines ss (a_o a) (Dd ss D) (a_mf a) (a_dep a) (a_col a) (a_t a) (a_s a)) az) by (apply (zip_forall _ _ _ _ Fl); intros a s _ Q; apply Q).
  rewrite <- Eo in Bc, NJ, Dr, Mf, Hn, Hd. rewrite <- (map_map ta_f (fun f => at_res (t_call f ps) [] [] n d)), <- Et, map_map.
  assert (Ne' : az <> []) by (intros E; apply Ne; destruct ats; [reflexivity|]; destruct l; [discriminate|]; discriminate E).
  assert (Dr' : Forall (fun a => DR (snd (a_o a)) (snd (join (map a_o az)))) az) by (apply (zip_forall _ _ _ _ Fl); intros a s Ha _; cbn [a_o]; exact (proj1 (Forall_forall _ _) Dr a Ha)).
  assert (Mf' : Forall (fun a => forall f, In f (a_mf a) -> nth f (fst (a_o a)) 1%nat = nth f (fst (join (map a_o az))) 1%nat) az) by (apply (zip_forall _ _ _ _ Fl); intros a s Ha _; cbn [a_mf a_o]; exact (proj1 (Forall_forall _ _) Mf a Ha)).
  clearbody az. clear Eo Et Fl L.
  pose proof (are_pars_prms _ _ Ap) as Pp. pose proof (are_pars_Dd _ _ _ Ap d0) as Dp.
  destruct (product_call_mc ss (Dd ss D) az Ne' Bc NJ Dr' Ca Ra Mf' ps _ Pp Dp) as (v & Ev & _ & V).
  unfold at_res at 1. rewrite Ev. cbn [res0]. rewrite (V n d Hn Hd : get (vden v) [] [] n d = _).
  assert (K : forall k, (k < length az)%nat -> FuncProduct.V (map a_s az) (map vden ps) n d k = at_res (t_call (a_t (nth k az dflt)) ps) [] [] n d).
  { intros k Hk. destruct (pin ss (Dd ss D) az Bc Dr' Ca Ra Mf' _ (nth_In az dflt Hk)) as (A1 & A2 & C & R & _). destruct (rf_call _ _ _ _ _ _ _ _ R ps _ Pp Dp) as (u & Eu & Ru).
    unfold at_res. rewrite Eu. cbn [res0]. unfold FuncProduct.V. rewrite nthF. symmetry.
    exact (proj2 (vrel_mc (a_col (nth k az dflt)) (a_o (nth k az dflt)) (join (map a_o az)) u _ A1 A2 NJ (rf_pos _ _ _ _ _ _ _ _ R) (FuncAffine.call_st (c_wf _ _ _ _ C) _ (proj1 (proj2 Pp))) Ru) n d Hn Hd). }
  rewrite (FuncProduct.Rprod_ext _ (fun k => at_res (t_call (a_t (nth k az dflt)) ps) [] [] n d)) by (intros k Hk; apply in_seq in Hk; apply K; lia).
  clear. unfold Rprod.
  assert (E : map (fun k => at_res (t_call (a_t (nth k az dflt)) ps) [] [] n d) (seq 0 (length az)) = map (fun a => at_res (t_call (a_t a) ps) [] [] n d) az).
  { induction az as [|a l IH]; [reflexivity|]. cbn [length seq map nth]. f_equal. rewrite <- seq_shift, map_map. exact IH. }
  first [now rewrite E | rewrite <- E; reflexivity].
Qed.
