(** Quadratic can be used as a regularization, Linear as a constraint. *)
From Verif Require Import Prelude DenseModel AnalyticSpec DenseProofs NDArray NDProofs TensorModel TensorSpec TensorSpecOps TensorLemmas TensorBasic TensorSum TensorSumMain TensorBin TensorArith TensorGeneric TensorGSum TensorUfunc FuncModel FuncSpec FTModel FTSpec FTRep FTRep2 FTRep3 FTVal FTDiag FTRefine FTBuilt LTModel LTCell LTProd LTSpec LTLik LTDer ParamModel AssembleModel AssembleSpec OTModel OTSpec OTBlock OTFlat.
From Verif Require FuncPrim OTSim2.
From Coquelicot Require Import Coquelicot.
From Coq Require Import Reals Lra.
Import List ListNotations.
Open Scope R_scope.
#[local] Existing Instance loose.

Lemma sum_blk t K Y F : xfits (SH K Y K []) t -> (forall x y n, In x (indices K) -> In y (indices Y) -> In n (indices K) -> get (den t) x y n [] = F x y n) -> sN t = K -> sD t = [] ->
  exists r, ssum (PT t) = Ok (PT r) /\ blk K Y (PT r) (fun x y => Rsum (F x y) (indices K)).
Proof.
  intros X V SN_ SD_. destruct (tsum_ok t true (xf_wf _ _ X) (xf_feat _ _ X)) as (r & Er & Wr & M1 & M2 & E1 & E2 & E3 & E4 & E). cbn [dsum_axes xs ys ns ds] in E1, E2, E3, E4. exists r. unfold ssum. cbn [psum]. rewrite Er. split; [reflexivity|].
  pose proof (xf_xe _ _ X) as Xe. pose proof (xf_ye _ _ X) as Ye. cbn [SX SY] in Xe, Ye. rewrite Xe in E1. rewrite Ye in E2.
  exists r. split; [reflexivity|]. split; [exact Wr|]. split; [exact M1|]. split; [exact M2|]. split; [unfold shape_of; congruence|]. intros x y Hx Hy. rewrite E by (rewrite ?E1, ?E2, ?E3, ?E4; auto; now left).
  cbn [dsum_axes at_]. assert (Nn : ns (den t) = K) by (cbn; exact SN_). assert (Nd : ds (den t) = []) by (cbn; exact SD_). rewrite Nn, Nd. rewrite sumR_prod. apply Rsum_ext. intros n Hn. cbn [indices]. rewrite Rsum_cons. unfold Rsum at 1. cbn [map fold_right]. rewrite Rplus_0_r.
  rewrite <- V by assumption. unfold get. rewrite Xe, Ye, Nn, Nd. rewrite !clamp_in by (auto; now left). reflexivity.
Qed.
Lemma grad_sum K a h ps i : posl K -> shp a = K -> (forall x, In x (indices K) -> el a x = h x) -> pndim ps i = Ok (length K) ->
  exists t r, grad_tensor (PArr a) ps i MTrue 0 = Ok t /\ ssum (PT t) = Ok (PT r) /\ blk K [] (PT r) (fun x _ => h x).
Proof.
  intros P Sa Va Pn. destruct (diag_grad_xfits K [] a h P (Forall_nil _)) as (v & t & Ev & Et & X & Mx & My & Sh & V); [now rewrite app_nil_r|rewrite app_nil_r; exact Va|].
  assert (G : groups t (repeat 1%nat (length K)) [] K []).
  { cbn [length] in Et. unfold Tensor in Et. destruct (Nat.ltb (ndim v) (length K + 0 + 0)) eqn:L; [discriminate|]. injection Et as Et. rewrite <- Et in Sh |- *. cbn [tv] in Sh. apply Nat.ltb_ge in L. constructor; cbn; auto.
    - now rewrite repeat_length. - unfold ndim. rewrite Sh, !app_length, repeat_length. cbn. lia. }
  destruct (groups_sX t _ _ _ _ G) as (S1 & S2 & S3 & S4).
  destruct (sum_blk t K [] (fun x _ n => if eqb_idx x n then h (n ++ []) else 0) X) as (r & Er & Br); [|exact S3|exact S4|].
  { intros x y n Hx [<-|[]] Hn. apply V; auto. now left. }
  exists t, r. split; [|split; [exact Er|]].
  - unfold grad_tensor. rewrite Pn. cbn [rbind asarray]. rewrite Ev. exact Et.
  - eapply blk_ext; [|exact Br]. intros x y Hx _. cbn beta. transitivity (Rsum (fun n => if eqb_idx n x then h n else 0) (indices K)).
    + apply Rsum_ext. intros n _. rewrite app_nil_r. destruct (FuncPrim.eqb_idx_spec x n), (FuncPrim.eqb_idx_spec n x); try congruence; reflexivity.
    + rewrite FuncPrim.Rsum_delta; [reflexivity|apply NoDup_indices|exact Hx].
Qed.
Lemma hess_sum K a h ps i : posl K -> shp a = K -> (forall x, In x (indices K) -> el a x = h x) -> pndim ps i = Ok (length K) ->
  exists t r, hess_tensor (PArr a) ps i i MTrue MTrue 0 = Ok t /\ ssum (PT t) = Ok (PT r) /\ blk K K (PT r) (fun x y => if eqb_idx x y then h x else 0).
Proof.
  intros P Sa Va Pn. destruct (diag_hess_xfits K [] a h P (Forall_nil _)) as (v & t & Ev & Et & X & Mx & My & Sh & V); [now rewrite app_nil_r|rewrite app_nil_r; exact Va|].
  assert (G : groups t (repeat 1%nat (length K)) (repeat 1%nat (length K)) K []).
  { cbn [length] in Et. unfold Tensor in Et. destruct (Nat.ltb (ndim v) (length K + length K + 0)) eqn:L; [discriminate|]. injection Et as Et. rewrite <- Et in Sh |- *. cbn [tv] in Sh. apply Nat.ltb_ge in L. constructor; cbn; auto.
    - now rewrite repeat_length. - now rewrite repeat_length. - unfold ndim. rewrite Sh, !app_length, !repeat_length. cbn. lia. }
  destruct (groups_sX t _ _ _ _ G) as (S1 & S2 & S3 & S4).
  destruct (sum_blk t K K (fun x y n => if eqb_idx x n then if eqb_idx y n then h (n ++ []) else 0 else 0) X) as (r & Er & Br); [|exact S3|exact S4|].
  { intros x y n Hx Hy Hn. apply V; auto. now left. }
  exists t, r. split; [|split; [exact Er|]].
  - unfold hess_tensor. rewrite Pn. unfold msel. cbn [rbind asarray]. rewrite Ev. exact Et.
  - eapply blk_ext; [|exact Br]. intros x y Hx Hy. cbn beta. transitivity (Rsum (fun n => if eqb_idx n x then (if eqb_idx x y then h n else 0) else 0) (indices K)).
    + apply Rsum_ext. intros n _. rewrite app_nil_r. destruct (FuncPrim.eqb_idx_spec x n), (FuncPrim.eqb_idx_spec n x); try congruence; try reflexivity.
      destruct (FuncPrim.eqb_idx_spec y n), (FuncPrim.eqb_idx_spec x y); try congruence; reflexivity.
    + rewrite FuncPrim.Rsum_delta; [reflexivity|apply NoDup_indices|exact Hx].
Qed.

(** *** parameters as arrays *)
Lemma par_nth ss ps i : are_pars ss ps -> (i < length ss)%nat -> exists p, nth_error ps i = Some p /\ p = nth i ps (PNum 0) /\ pv (nth i ss ([], [])) p (pentry p).
Proof.
  intros A Hi. pose proof (Forall2_length' _ _ _ A) as L. exists (nth i ps (PNum 0)). split; [apply nth_error_nth'; lia|]. split; [reflexivity|]. apply is_par_pv. clear L. revert i Hi. induction A as [|p s l ss0 H A IH]; intros i Hi; [cbn in Hi; lia|]. destruct i as [|i]; [exact H|]. cbn [nth]. apply IH. cbn in Hi. lia.
Qed.
Lemma par_array ss ps i : are_pars ss ps -> (i < length ss)%nat -> let K := flat (nth i ss ([], [])) in
  rnth ps i = Ok (nth i ps (PNum 0)) /\ pndim ps i = Ok (length K) /\ exists a, asarray (nth i ps (PNum 0)) = Ok a /\ shp a = K /\ forall x, In x (indices K) -> el a x = par_entry ps i x.
Proof.
  intros A Hi K. destruct (par_nth ss ps i A Hi) as (p & E & Ep & Pv). destruct (pv_asarray _ _ _ Pv) as (a & Ea & Sa & Va). unfold pndim, rnth. rewrite E. cbn [rbind]. rewrite <- Ep, Ea. cbn [rbind]. split; [reflexivity|]. split; [unfold ndim; now rewrite Sa|].
  exists a. split; [reflexivity|]. split; [exact Sa|]. intros x Hx. rewrite (Va x Hx). unfold par_entry. now rewrite Ep.
Qed.
Lemma aff_der u a (f : R -> R) t l : is_derive f t l -> is_derive (fun r => a * (f r - u)) t (a * l).
Proof. intros H. auto_derive; [exists l; exact H|]. pose proof (is_derive_unique _ _ _ H) as E. match goal with |- context [Derive ?g t] => change (Derive g t) with (Derive f t) end. cbn in E. rewrite E. ring. Qed.
Lemma sq_der u s (Hs : s <> 0) (f : R -> R) t l : is_derive f t l -> is_derive (fun r => ((f r - u) / s) ^ 2) t (2 * ((f t - u) / s) / s * l).
Proof. intros H. auto_derive; [exists l; exact H|]. pose proof (is_derive_unique _ _ _ H) as E. match goal with |- context [Derive ?g t] => change (Derive g t) with (Derive f t) end. cbn in E. rewrite E. field. exact Hs. Qed.
Section quad.
Variable ss : list pst.
Hypothesis Ps : Forall (fun s => posl (flat s)) ss.
Notation Kf i := (flat (nth i ss ([], []))).
Lemma Kpos i : posl (Kf i).
Proof. destruct (Nat.lt_ge_cases i (length ss)) as [H|H]; [rewrite Forall_forall in Ps; apply Ps, nth_In, H|rewrite nth_overflow by lia; constructor]. Qed.
Variables u s : R.
Hypothesis Hs : s <> 0.
Definition squares (ps : list pval) : R := over_params ss (fun i x => ((par_entry ps i x - u) / s) ^ 2).

Lemma quad_zs ps : are_pars ss ps -> exists zs, rmapM (quad_z u s) ps = Ok zs /\ length zs = length ss /\
  forall i, (i < length ss)%nat -> exists z, nth_error zs i = Some z /\ shp z = Kf i /\ forall x, In x (indices (Kf i)) -> el z x = (par_entry ps i x - u) / s.
Proof.
  intros A. pose proof (Forall2_length' _ _ _ A) as L.
  set (g := fun p => match asarray p with Ok a => np_map (fun v => (v - u) / s) a | Raise _ => np_scalar 0 end). exists (map g ps). split; [|split; [now rewrite map_length|]].
  - apply rmapM_all_ok. intros p Hp. apply In_nth with (d := PNum 0) in Hp as (i & Hi & <-). rewrite L in Hi. destruct (par_array ss ps i A Hi) as (_ & _ & a & Ea & _). unfold quad_z, g. rewrite Ea. reflexivity.
  - intros i Hi. destruct (par_array ss ps i A Hi) as (_ & _ & a & Ea & Sa & Va). exists (g (nth i ps (PNum 0))). split; [rewrite nth_error_map, (nth_error_nth' ps (PNum 0)) by lia; reflexivity|]. unfold g. rewrite Ea. cbn [np_map shp el]. split; [exact Sa|]. intros x Hx. now rewrite Va.
Qed.
Lemma fold_sum : forall zs v m, (forall i, (i < length zs)%nat -> exists z, nth_error zs i = Some z /\ sumR (entries (np_map (fun v => v * v) z)) = m i) ->
  fold_left (fun val z => val + sumR (entries (np_map (fun v => v * v) z))) zs v = v + Rsum m (seq 0 (length zs)).
Proof.
  induction zs as [|z zs IH]; intros v m H; [cbn; unfold Rsum; cbn; ring|]. cbn [fold_left length seq]. rewrite Rsum_cons. destruct (H O ltac:(cbn; lia)) as (z' & E & Em). cbn in E. injection E as <-. rewrite Em.
  rewrite (IH _ (fun i => m (Datatypes.S i))) by (intros i Hi; apply (H (Datatypes.S i)); cbn; lia). rewrite <- seq_shift, Rsum_map. ring.
Qed.
Lemma quad_call ps : are_pars ss ps -> exists t, t_call (t_Quadratic u s) ps = Ok (PT t) /\ blk [] [] (PT t) (fun _ _ => squares ps).
Proof.
  intros A. destruct (quad_zs ps A) as (zs & Ez & Lz & Hz). cbn [t_Quadratic t_call]. rewrite Ez. cbn [rbind as_tensor rmap]. eexists. split; [reflexivity|].
  rewrite (fold_sum zs 0 (fun i => Rsum (fun x => ((par_entry ps i x - u) / s) ^ 2) (indices (Kf i)))).
  - rewrite Lz, Rplus_0_l. apply OTSim2.blk_tnum.
  - intros i Hi. rewrite Lz in Hi. destruct (Hz i Hi) as (z & E & Sz & Vz). exists z. split; [exact E|]. unfold entries. cbn [np_map shp]. rewrite Sz, sumR_map. apply Rsum_ext. intros x Hx. cbn [np_map el]. rewrite Vz by exact Hx. ring.
Qed.
Lemma quad_grad ps i : are_pars ss ps -> (i < length ss)%nat -> exists t, t_grad (t_Quadratic u s) ps i = Ok (PT t) /\ blk (Kf i) [] (PT t) (fun x _ => 2 * ((par_entry ps i x - u) / s) / s).
Proof.
  intros A Hi. destruct (par_array ss ps i A Hi) as (E1 & E2 & a & Ea & Sa & Va). cbn [t_Quadratic t_grad]. rewrite E1. cbn [rbind]. unfold quad_z. rewrite Ea. cbn [rbind].
  destruct (grad_sum (Kf i) (np_map (fun v => 2 * v / s) (np_map (fun v => (v - u) / s) a)) (fun x => 2 * ((par_entry ps i x - u) / s) / s) ps i (Kpos i) Sa) as (t & r & Et & Er & Br); [intros x Hx; cbn; now rewrite Va|exact E2|].
  rewrite Et. cbn [rbind]. rewrite Er. eauto.
Qed.
Lemma quad_hess ps i : are_pars ss ps -> (i < length ss)%nat -> exists t, t_hess (t_Quadratic u s) ps i i = Ok (PT t) /\ blk (Kf i) (Kf i) (PT t) (fun x y => if eqb_idx x y then 2 / s / s else 0).
Proof.
  intros A Hi. destruct (par_array ss ps i A Hi) as (E1 & E2 & a & Ea & Sa & Va). cbn [t_Quadratic t_hess]. rewrite Nat.eqb_refl, E1. cbn [rbind]. unfold ones_like. rewrite Ea. cbn [rbind].
  destruct (hess_sum (Kf i) (np_map (fun v => 2 * v / s / s) (np_map (fun _ => 1) a)) (fun _ => 2 / s / s) ps i (Kpos i) Sa) as (t & r & Et & Er & Br); [intros x Hx; cbn; now rewrite Rmult_1_r|exact E2|].
  rewrite Et. cbn [rbind]. rewrite Er. eauto.
Qed.
Lemma quad_hess0 ps i j : i <> j -> t_hess (t_Quadratic u s) ps i j = Ok tzero.
Proof. intros N. cbn [t_Quadratic t_hess]. destruct (Nat.eqb_spec i j); [contradiction|reflexivity]. Qed.
Lemma at_zero x y n d : at_res (Ok tzero) x y n d = 0.
Proof. unfold at_res, get, tzero. cbn. ring. Qed.
Lemma blk_at r X Y v B x y : r = Ok v -> blk X Y v B -> In x (indices X) -> In y (indices Y) -> at_res r x y [] [] = B x y.
Proof. intros -> Bk Hx Hy. exact (blk_get X Y v B x y [] [] Bk Hx Hy). Qed.
Lemma quad_grad_at ps i x : are_pars ss ps -> (i < length ss)%nat -> In x (indices (Kf i)) -> at_res (t_grad (t_Quadratic u s) ps i) x [] [] [] = 2 * ((par_entry ps i x - u) / s) / s.
Proof. intros A Hi Hx. destruct (quad_grad ps i A Hi) as (t & E & B). exact (blk_at _ _ _ _ _ x [] E B Hx (or_introl eq_refl)). Qed.
Lemma quad_hess_at ps i j x y : are_pars ss ps -> (i < length ss)%nat -> In x (indices (Kf i)) -> In y (indices (Kf j)) ->
  at_res (t_hess (t_Quadratic u s) ps i j) x y [] [] = if Nat.eqb i j then if eqb_idx x y then 2 / s / s else 0 else 0.
Proof.
  intros A Hi Hx Hy. destruct (Nat.eqb_spec i j) as [<-|N].
  - destruct (quad_hess ps i A Hi) as (t & E & B). exact (blk_at _ _ _ _ _ x y E B Hx Hy).
  - rewrite quad_hess0 by exact N. apply at_zero.
Qed.
Lemma Quadratic_penalty : penalty ss anyP (t_Quadratic u s) squares.
Proof.
  constructor.
  - intros ps A _. destruct (quad_call ps A) as (t & E & B). rewrite E. now apply blk_block.
  - intros ps i A _ Hi. destruct (quad_grad ps i A Hi) as (t & E & B). eapply block_ext; [|exact (blk_is _ _ _ _ _ E B)]. intros x y _ [<-|[]]. reflexivity.
  - intros ps i j A _ Hi Hj. destruct (Nat.eq_dec i j) as [<-|N]; [left|right; now apply quad_hess0]. destruct (quad_hess ps i A Hi) as (t & E & B). exact (blk_is _ _ _ _ _ E B).
  - constructor.
    + intros ps A _. split; [|split].
      * destruct (quad_call ps A) as (t & E & _). eauto.
      * intros i Hi. destruct (quad_grad ps i A Hi) as (t & E & _). eauto.
      * intros i j Hi Hj. destruct (Nat.eq_dec i j) as [<-|N]; [destruct (quad_hess ps i A Hi) as (t & E & _); eauto|rewrite quad_hess0 by exact N; eauto].
    + intros c v t [A V] _ n d [<-|[]] [<-|[]]. apply (is_derive_ext (fun r => squares (c r))).
      { intros r. destruct (quad_call (c r) (A r)) as (w & E & B). symmetry. exact (blk_at _ _ _ _ _ [] [] E B (or_introl eq_refl) (or_introl eq_refl)). }
      unfold squares, over_params, pairing. apply (is_derive_Rsum (fun r i => Rsum (fun x => ((par_entry (c r) i x - u) / s) ^ 2) (indices (Kf i)))). intros i Hi. apply in_seq in Hi.
      apply (is_derive_Rsum (fun r x => ((par_entry (c r) i x - u) / s) ^ 2)). intros x Hx. rewrite quad_grad_at by (auto; lia). pose proof (V i x ltac:(lia) Hx) as Dv. unfold par_entry.
      exact (sq_der u s Hs (fun r => pentry (nth i (c r) (PNum 0)) x) t _ Dv).

    + intros c v t [A V] _ i x n d Hi Hx [<-|[]] [<-|[]]. apply (is_derive_ext (fun r => 2 * ((par_entry (c r) i x - u) / s) / s)); [intros r; now rewrite quad_grad_at|].
      assert (E : pairing ss (fun j y => t_hess_at (t_Quadratic u s) (c t) i j x y [] []) v = 2 / s / s * v i x).
      { transitivity (pairing ss (fun j y => 2 / s / s * v i x) (fun j y => if Nat.eqb j i && eqb_idx y x then 1 else 0)); [|now rewrite pairing_unit].
        unfold pairing. apply Rsum_ext. intros j Hj. apply in_seq in Hj. apply Rsum_ext. intros y Hy. unfold t_hess_at.
        assert (Eh : (if (j <=? i)%nat then at_res (t_hess (t_Quadratic u s) (c t) i j) x y [] [] else at_res (t_hess (t_Quadratic u s) (c t) j i) y x [] []) = if Nat.eqb j i && eqb_idx y x then 2 / s / s else 0).
        { destruct (Nat.leb_spec j i); rewrite quad_hess_at by (auto; lia); rewrite 1?(Nat.eqb_sym i j); destruct (Nat.eqb_spec j i) as [->|]; cbn [andb]; try reflexivity; destruct (FuncPrim.eqb_idx_spec x y), (FuncPrim.eqb_idx_spec y x); try congruence; reflexivity. }
        rewrite Eh. destruct (Nat.eqb_spec j i) as [->|]; cbn [andb]; [|ring]. destruct (FuncPrim.eqb_idx_spec y x) as [->|]; ring. }
      rewrite E. pose proof (V i x Hi Hx) as Dv. unfold par_entry. eapply (is_derive_ext (fun r => 2 / s / s * (pentry (nth i (c r) (PNum 0)) x - u))); [intros r; match goal with |- @eq _ ?a ?b => change (@eq R a b) end; field; exact Hs|].
      exact (aff_der u (2 / s / s) (fun r => pentry (nth i (c r) (PNum 0)) x) t _ Dv).
    + intros ps i x y n d A _ Hi Hx Hy [<-|[]] [<-|[]]. rewrite !quad_hess_at by auto. rewrite Nat.eqb_refl. destruct (FuncPrim.eqb_idx_spec x y), (FuncPrim.eqb_idx_spec y x); try congruence; reflexivity.
Qed.
End quad.
