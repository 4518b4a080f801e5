(** NumPy arrays combined with a GenericTensor (tensor/tensor.py 356-438): the array
    has the features as its axes; multiplication and division always work, an array
    added is absorbed by the first element without diagonals, and is appended as it is
    when there is none. *)
From Verif Require Import Prelude DenseModel AnalyticSpec DenseProofs NDArray NDProofs TensorModel TensorSpec TensorSpecOps TensorLemmas TensorBasic TensorSum TensorSumMain TensorBin TensorArith TensorShape TensorExpand TensorMore TensorGeneric TensorGSum FTRep FTRep2 FTWrap LTProd TensorGOps TensorGMul FTModel.
From Coq Require Import Reals Lra.
Import List ListNotations.
Open Scope R_scope.

(** Tensor(a) *)
Definition arrt (a : nda) : tensor := mkT a 0 0 (ndim a) 0 [] [].
Lemma arrt_ok a : Tensor a 0 0 0 [] [] = Ok (arrt a).
Proof. unfold Tensor, arrt. cbn [Nat.add Nat.ltb Nat.leb]. now rewrite !Nat.sub_0_r. Qed.
Lemma arr_groups a : groups (arrt a) [] [] (shp a) [].
Proof. constructor; try reflexivity. cbn [app arrt tv]. now rewrite app_nil_r. Qed.
Lemma arr_wf a : posl (shp a) -> wf (arrt a).
Proof. intros P. eapply wf_of; [apply arr_groups|constructor|constructor|exact P|constructor|apply map_ok_nil|apply map_ok_nil]. Qed.
Lemma arr_fits S a : spos S -> posl (shp a) -> below (shp a) (SN S) -> shp a <> [] -> fits S (arrt a).
Proof.
  intros PS P B N. destruct (den_groups _ _ _ _ _ (arr_groups a)) as (A1 & A2 & A3 & A4). destruct (groups_sX _ _ _ _ _ (arr_groups a)) as (B1 & B2 & B3 & B4).
  constructor; [now apply arr_wf|split; constructor|exact N| | | | |].
  - rewrite A1. now left.
  - rewrite A2. now left.
  - now rewrite B3.
  - rewrite B4. now left.
  - intros f [[]|[]].
Qed.
Lemma arr_den a : posl (shp a) -> dsame (den (arrt a)) (vden (PArr a)).
Proof.
  intros P. destruct (den_groups _ _ _ _ _ (arr_groups a)) as (A1 & A2 & A3 & A4). cbn [msizes arrt xm ym] in A1, A2.
  unfold dsame. cbn [vden xs ys ns ds at_]. rewrite A1, A2, A3, A4. do 4 (split; [reflexivity|]). intros x y n d [<-|[]] [<-|[]] _ [<-|[]].
  unfold den; cbn [at_ arrt xm ym stored deltas tv app]. rewrite app_nil_r. ring.
Qed.
Lemma arr_dpos a : posl (shp a) -> dpos (vden (PArr a)).
Proof. intros P. repeat split; cbn [vden xs ys ns ds]; try constructor. exact P. Qed.
Lemma arr_dbelow S a : below (shp a) (SN S) -> dbelow S (vden (PArr a)).
Proof. intros B. constructor; cbn [vden xs ys ns ds]; try (now left). exact B. Qed.
Lemma arr_bin t a op : shp a <> [] -> tbin1 t (IArr a) op = tbin1 t (IT (arrt a)) op.
Proof. intros N. cbn [tbin1]. unfold tbin_arr, tbin_t. cbn [arrt tv]. destruct (shp a); [congruence|]. now rewrite arrt_ok. Qed.
Lemma arr_item e a op : shp a <> [] -> item_bin e (IArr a) op = item_bin e (IT (arrt a)) op.
Proof. intros N. destruct e; cbn [item_bin]; try reflexivity. now apply arr_bin. Qed.
Lemma arr_items a op es : shp a <> [] -> rmapM (fun e => let! v := item_bin e (IArr a) op in as_item v) es = rmapM (fun e => let! v := item_bin e (IT (arrt a)) op in as_item v) es.
Proof. intros N. induction es as [|e es IH]; [reflexivity|]. cbn [rmapM]. now rewrite arr_item, IH. Qed.

(** what an array must look like *)
Definition arr_for (S : shape4) (a : nda) : Prop := shp a <> [] /\ posl (shp a) /\ below (shp a) (SN S).
Lemma arr_pairs op g a : op = MUL \/ op = DIV -> Forall (fun e => exists t, e = IT t) (els g) -> elements (pairs op (arrt a)) g.
Proof.
  intros Hop F. eapply Forall_impl; [|exact F]. intros e (t & ->). exists t. split; [reflexivity|]. split; [|split].
  - right; left. split; reflexivity.
  - right; left. split; reflexivity.
  - destruct Hop as [-> | ->]; [now left|right; left; auto].
Qed.
Lemma fit_tensors S g : gfits S g -> Forall (fun e => exists t, e = IT t) (els g).
Proof. intros F. eapply Forall_impl; [|exact F]. intros e (t & -> & _). eauto. Qed.
Theorem gprod_arr S g a op : spos S -> op = MUL \/ op = DIV -> gfits S g -> els g <> [] -> arr_for S a ->
  exists g', gbin1 g (IArr a) op = Ok g' /\ gfits S g' /\ dsame (gden g') (dbin (op_fun op) (gden g) (vden (PArr a))) /\
    gx g' = gx g /\ gy g' = gy g /\ gn g' = gn g /\ gd g' = gd g.
Proof.
  intros PS Hop Fg Ne (N & P & B). pose proof (arr_fits S a PS P B N) as Fa.
  destruct (gprod_ok S g (arrt a) op PS Hop Fg Ne Fa (arr_pairs op g a Hop (fit_tensors S g Fg))) as (g' & E & F & D & _).
  assert (E' : exists es, rmapM (fun e => let! v := item_bin e (IArr a) op in as_item v) (els g) = Ok es /\ els g' = es).
  { rewrite arr_items by exact N. unfold gbin1 in E. destruct Hop as [-> | ->]; (destruct (bind_inv _ _ _ E) as (es & Ee & Eg); injection Eg as <-; exists es; auto). }
  destruct E' as (es & Ee & Eg). exists (mkG (gx g) (gy g) (gn g) (gd g) es). split; [unfold gbin1; destruct Hop as [-> | ->]; rewrite Ee; reflexivity|].
  split; [unfold gfits in *; cbn [els]; now rewrite <- Eg|]. split; [|auto].
  assert (GG : gden (mkG (gx g) (gy g) (gn g) (gd g) es) = gden g') by (unfold gden; cbn [els]; now rewrite Eg). rewrite GG.
  eapply dsame_trans; [exact D|]. apply dsame_dbin; auto; [|eapply dpos_gden; eauto|apply wf_dpos, Fa|apply dsame_refl|now apply arr_den].
  apply (dbelow_dcompat S); [now apply dbelow_gden|now apply fits_dbelow].
Qed.
(** a tensor without diagonals *)
Definition undiag (t : tensor) : Prop := xm t = [] /\ ym t = [].
Lemma absorb_arr S a op : spos S -> op = ADD \/ op = SUB -> arr_for S a -> forall es app app', allfit S es -> (exists t, In (IT t) es /\ undiag t) ->
  absorb es (IArr a) op app = absorb es (IT (arrt a)) op app'.
Proof.
  intros PS Hop (N & P & B) es. pose proof (arr_fits S a PS P B N) as Fa. induction es as [|e es IH]; intros app app' A (t & I & U); [destruct I|].
  inversion A as [|? ? (s & -> & Fs) A']; subst. cbn [absorb]. rewrite arr_item by exact N.
  assert (Ad : additive op = true) by (destruct Hop as [-> | ->]; reflexivity).
  destruct I as [Et | I].
  - injection Et as ->. destruct U as [Ux Uy].
    destruct (tadd_same t (arrt a) op (ft_wf _ _ Fs) (ft_wf _ _ Fa) (ft_feat _ _ Fs) (ft_feat _ _ Fa)) as (r & Er & _); auto.
    { eapply fits_compat; eauto. apply PS. } { apply (ft_rank _ _ Fs). }
    cbn [item_bin tbin1]. unfold tbin_t. pose proof (ft_rank _ _ Fa) as Ra. destruct (shp (tv (arrt a))) eqn:Ea; [congruence|]. rewrite Er. reflexivity.
  - cbn [item_bin tbin1]. destruct (pair_op S s (arrt a) op PS Fs Fa Ad) as [(r & Er & _) | (h & Eh)].
    + rewrite Er. reflexivity.
    + rewrite Eh. cbn [rbind]. rewrite (IH app app' A'); [reflexivity|]. exists t. auto.
Qed.
Theorem gadd_arr S g a op : spos S -> op = ADD \/ op = SUB -> gfits S g -> (exists t, In (IT t) (els g) /\ undiag t) -> arr_for S a ->
  exists g', gbin1 g (IArr a) op = Ok g' /\ gfits S g' /\ dsame (gden g') (dbin (op_fun op) (gden g) (vden (PArr a))) /\
    gx g' = gx g /\ gy g' = gy g /\ gn g' = gn g /\ gd g' = gd g.
Proof.
  intros PS Hop Fg U A. pose proof A as (N & P & B). pose proof (arr_fits S a PS P B N) as Fa.
  destruct (gbin_tensor S g (arrt a) op PS Fg Fa Hop) as (g' & E & F & D).
  assert (E' : exists es, absorb (els g) (IArr a) op (if match op with ADD => true | _ => false end then Ok (IArr a) else item_neg (IArr a)) = Ok es /\ els g' = es).
  { unfold gbin1 in E. destruct Hop as [-> | ->]; (destruct (bind_inv _ _ _ E) as (es & Ee & Eg); injection Eg as <-; exists es; split; [|reflexivity]; rewrite <- Ee; apply (absorb_arr S a); auto). }
  destruct E' as (es & Ee & Eg). exists (mkG (gx g) (gy g) (gn g) (gd g) es). split; [unfold gbin1; destruct Hop as [-> | ->]; cbn [item_neg] in *; rewrite Ee; reflexivity|].
  split; [unfold gfits in *; cbn [els]; now rewrite <- Eg|]. split; [|auto].
  assert (GG : gden (mkG (gx g) (gy g) (gn g) (gd g) es) = gden g') by (unfold gden; cbn [els]; now rewrite Eg). rewrite GG.
  eapply dsame_trans; [exact D|]. apply dsame_dbin; auto; [|eapply dpos_gden; eauto|apply wf_dpos, Fa|apply dsame_refl|now apply arr_den].
  apply (dbelow_dcompat S); [now apply dbelow_gden|now apply fits_dbelow].
Qed.
Lemma neg_undiag t r : tneg t = Ok r -> undiag t -> undiag r.
Proof. unfold tneg, undiag. intros E [U1 U2]. apply Tensor_inv in E as (-> & -> & _). split; assumption. Qed.
Theorem grsub_arr S g a : spos S -> gfits S g -> (exists t, In (IT t) (els g) /\ undiag t) -> arr_for S a ->
  exists g', gbin1 g (IArr a) RSUB = Ok g' /\ gfits S g' /\ dsame (gden g') (dbin Rminus (vden (PArr a)) (gden g)) /\
    gx g' = gx g /\ gy g' = gy g /\ gn g' = gn g /\ gd g' = gd g.
Proof.
  intros PS Fg (t & It & Ut) A. destruct (gneg_ok S g PS Fg) as (gm & Em & Fm & Dm). unfold gneg in Em. destruct (bind_inv _ _ _ Em) as (es & Ee & Eg). injection Eg as <-.
  assert (U' : exists t', In (IT t') es /\ undiag t').
  { clear - Ee It Ut. revert es Ee. induction (els g) as [|e l IH]; intros es Ee; [destruct It|]. cbn [rmapM] in Ee. destruct (bind_inv _ _ _ Ee) as (e' & E1 & E2). destruct (bind_inv _ _ _ E2) as (l' & E3 & E4). injection E4 as <-.
    destruct It as [-> | It].
    - cbn [item_neg] in E1. destruct (bind_inv _ _ _ E1) as (t' & E5 & E6). injection E6 as <-. exists t'. split; [now left|]. now apply (neg_undiag t).
    - destruct (IH It l' E3) as (t' & I' & U'). exists t'. split; [now right|exact U']. }
  destruct (gadd_arr S (mkG (gx g) (gy g) (gn g) (gd g) es) a ADD PS (or_introl eq_refl) Fm U' A) as (g' & E1 & F1 & D1 & M).
  exists g'. split. { unfold gbin1 in E1 |- *. cbn [els gx gy gn gd] in E1. rewrite Ee. exact E1. }
  split; [exact F1|]. split; [|exact M]. eapply dsame_trans; [exact D1|].
  pose proof A as (N & P & B). pose proof (arr_fits S a PS P B N) as Fa. pose proof (arr_den a P) as Da.
  assert (dsame (dbin (op_fun ADD) (gden (mkG (gx g) (gy g) (gn g) (gd g) es)) (vden (PArr a))) (dbin Rplus (dneg (gden g)) (vden (PArr a)))) as D2.
  { apply dsame_dbin; auto.
    - apply (dbelow_dcompat S); [now apply dbelow_gden|now apply arr_dbelow].
    - eapply dpos_gden; eauto.
    - now apply arr_dpos.
    - apply dsame_refl. }
  eapply dsame_trans; [exact D2|]. apply dsame_intro.
  - rewrite !shape_dbin. apply shmax_sym.
  - intros x y n d _. rewrite !get_dbin. unfold dneg. rewrite get_dmap. ring.
Qed.

(** no element without diagonals: the array itself becomes an element *)
Lemma absorb_none S a op : spos S -> op = ADD \/ op = SUB -> arr_for S a -> forall es app, allfit S es -> (forall t, In (IT t) es -> ~ undiag t) ->
  absorb es (IArr a) op app = let! v := app in Ok (es ++ [v]).
Proof.
  intros PS Hop (N & P & B) es app. pose proof (arr_fits S a PS P B N) as Fa. induction es as [|e es IH]; intros A U; [cbn [absorb]; destruct app; reflexivity|].
  inversion A as [|? ? (s & -> & Fs) A']; subst. cbn [absorb]. rewrite arr_item by exact N.
  assert (Ad : additive op = true) by (destruct Hop as [-> | ->]; reflexivity).
  cbn [item_bin tbin1]. destruct (pair_op S s (arrt a) op PS Fs Fa Ad) as [(r & Er & _) | (h & Eh)].
  - exfalso. apply (U s (or_introl eq_refl)). unfold tbin_t in Er. pose proof (ft_rank _ _ Fa) as Ra. destruct (shp (tv (arrt a))); [congruence|].
    unfold tbin_tensor in Er. pose proof (ft_rank _ _ Fs) as Rs. destruct (shp (tv s)); [congruence|].
    repeat match type of Er with rbind (py_assert ?b) _ = _ => destruct b; cbn [py_assert rbind] in Er; [|discriminate] end.
    rewrite Ad in Er. destruct (map_eqb (xm s) (xm (arrt a)) && map_eqb (ym s) (ym (arrt a))) eqn:M.
    + apply andb_true_iff in M as [Mx My]. apply map_eqb_eq in Mx, My. split; assumption.
    + destruct Hop as [-> | ->]; [discriminate|]. destruct (tneg (arrt a)); discriminate.
  - rewrite Eh. cbn [rbind]. rewrite IH by (auto; intros t It; apply U; now right). destruct app; reflexivity.
Qed.
Theorem gadd_arr_none S g a : spos S -> gfits S g -> (forall t, In (IT t) (els g) -> ~ undiag t) -> arr_for S a ->
  gbin1 g (IArr a) ADD = Ok (mkG (gx g) (gy g) (gn g) (gd g) (els g ++ [IArr a])) /\
  gdrop (mkG (gx g) (gy g) (gn g) (gd g) (els g ++ [IArr a])) = Raise AttributeError.
Proof.
  intros PS Fg U A. split.
  - unfold gbin1. rewrite (absorb_none S a ADD PS (or_introl eq_refl) A _ _ Fg U). reflexivity.
  - unfold gdrop, gmap. cbn [els]. unfold gfits in Fg. clear U. induction Fg as [|e es (t & -> & Ft) _ IH]; [reflexivity|]. cbn [app rmapM on_item].
    destruct (tdrop_ok t (ft_wf _ _ Ft)) as (r & Er & _). rewrite Er. cbn [rbind]. destruct (rmapM _ (es ++ [IArr a])) as [v|ex]; [discriminate IH|]. cbn [rbind] in IH |- *. exact IH.
Qed.

(** *** the Python operators *)
Theorem garr_times S g a : spos S -> gfits S g -> els g <> [] -> arr_for S a ->
  (exists g', py OMul (PG g) (PArr a) = Ok (PG g') /\ py OMul (PArr a) (PG g) = Ok (PG g') /\ gfits S g' /\
     dsame (gden g') (dbin Rmult (gden g) (vden (PArr a))) /\ gx g' = gx g /\ gy g' = gy g /\ gn g' = gn g /\ gd g' = gd g) /\
  (exists g', py ODiv (PG g) (PArr a) = Ok (PG g') /\ gfits S g' /\
     dsame (gden g') (dbin Rdiv (gden g) (vden (PArr a))) /\ gx g' = gx g /\ gy g' = gy g /\ gn g' = gn g /\ gd g' = gd g).
Proof.
  intros PS Fg Ne A. split.
  - destruct (gprod_arr S g a MUL PS (or_introl eq_refl) Fg Ne A) as (g' & E & H). exists g'. unfold py; cbn [direct reflected]; unfold gbin; cbv beta iota. rewrite E. cbn [rmap]. auto.
  - destruct (gprod_arr S g a DIV PS (or_intror eq_refl) Fg Ne A) as (g' & E & H). exists g'. unfold py; cbn [direct reflected]; unfold gbin; cbv beta iota. rewrite E. cbn [rmap]. auto.
Qed.
Theorem garr_plus S g a : spos S -> gfits S g -> (exists t, In (IT t) (els g) /\ xm t = [] /\ ym t = []) -> arr_for S a ->
  exists g', py OAdd (PG g) (PArr a) = Ok (PG g') /\ py OAdd (PArr a) (PG g) = Ok (PG g') /\ gfits S g' /\
    dsame (gden g') (dbin Rplus (gden g) (vden (PArr a))) /\ gx g' = gx g /\ gy g' = gy g /\ gn g' = gn g /\ gd g' = gd g.
Proof.
  intros PS Fg U A. destruct (gadd_arr S g a ADD PS (or_introl eq_refl) Fg U A) as (g' & E & H). exists g'. unfold py; cbn [direct reflected]; unfold gbin; cbv beta iota. rewrite E. cbn [rmap]. auto.
Qed.
Theorem garr_minus S g a : spos S -> gfits S g -> (exists t, In (IT t) (els g) /\ xm t = [] /\ ym t = []) -> arr_for S a ->
  (exists g', py OSub (PG g) (PArr a) = Ok (PG g') /\ gfits S g' /\
    dsame (gden g') (dbin Rminus (gden g) (vden (PArr a))) /\ gx g' = gx g /\ gy g' = gy g /\ gn g' = gn g /\ gd g' = gd g) /\
  (exists g', py OSub (PArr a) (PG g) = Ok (PG g') /\ gfits S g' /\
    dsame (gden g') (dbin Rminus (vden (PArr a)) (gden g)) /\ gx g' = gx g /\ gy g' = gy g /\ gn g' = gn g /\ gd g' = gd g).
Proof.
  intros PS Fg U A. split.
  - destruct (gadd_arr S g a SUB PS (or_intror eq_refl) Fg U A) as (g' & E & H). exists g'. unfold py; cbn [direct reflected]; unfold gbin; cbv beta iota. rewrite E. cbn [rmap]. auto.
  - destruct (grsub_arr S g a PS Fg U A) as (g' & E & H). exists g'. unfold py; cbn [direct reflected]; unfold gbin; cbv beta iota. rewrite E. cbn [rmap]. auto.
Qed.
Theorem garr_unabsorbed S g a : spos S -> gfits S g -> (forall t, In (IT t) (els g) -> ~ (xm t = [] /\ ym t = [])) -> arr_for S a ->
  exists g', py OAdd (PG g) (PArr a) = Ok (PG g') /\ els g' = els g ++ [IArr a] /\ gdrop g' = Raise AttributeError /\
    exists gm, gneg g' = Ok gm /\ gdrop gm = Raise AttributeError.
Proof.
  intros PS Fg U A. destruct (gadd_arr_none S g a PS Fg U A) as [E D]. eexists. split; [unfold py; cbn [direct]; unfold gbin; cbv beta iota; rewrite E; reflexivity|].
  split; [reflexivity|]. split; [exact D|].
  unfold gneg. cbn [els gx gy gn gd].
  assert (H : exists es, rmapM item_neg (els g ++ [IArr a]) = Ok es /\ rmapM (on_item (fun t => let! u := tdrop t in Ok (IT u))) es = Raise AttributeError).
  { unfold gfits in Fg. clear - Fg PS. induction Fg as [|e es (t & -> & Ft) _ (es' & E1 & E2)]; [eexists; split; reflexivity|]. cbn [app rmapM item_neg].
    destruct (fits_neg S t Ft) as (r & Er & Fr & _). rewrite Er. cbn [rbind]. rewrite E1. cbn [rbind]. eexists. split; [reflexivity|]. cbn [rmapM on_item].
    destruct (tdrop_ok r (ft_wf _ _ Fr)) as (u & Eu & _). rewrite Eu. cbn [rbind]. now rewrite E2. }
  destruct H as (es & E1 & E2). rewrite E1. cbn [rbind]. eexists. split; [reflexivity|]. unfold gdrop, gmap. cbn [els]. rewrite E2. reflexivity.
Qed.
