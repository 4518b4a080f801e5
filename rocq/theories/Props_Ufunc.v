(** Properties C70-C72: NumPy functions, powers and the product [dot] on
    Tensors (tensor.py:772-776, 924-963, 305-319, 630-667). *)
From Verif Require Import Prelude DenseModel DenseProofs NDArray NDProofs TensorModel TensorSpec TensorSpecOps TensorLemmas TensorBasic TensorSum TensorSumMain TensorShape TensorBin TensorArith TensorMore TensorDotCore TensorDot TensorUfunc TensorUfuncP Props_Tensor.
From Coq Require Import Reals Lra.
Import List ListNotations.
Open Scope R_scope.

(** *** C70: np.exp(t), a + t, np.maximum(t, c), ... *)
(** an entrywise function of a tensor without x and y axes *)
Theorem C70_unary : forall n f t, wf t -> xd t = 0%nat -> yd t = 0%nat ->
  exists r, np_call (S n) (UPoint f) [PT t] = Some (Ok (PT r)) /\ wf r /\ dm r = dm t /\ dsame (den r) (dmap f (den t)).
Proof. exact unary_ok. Qed.
(** of a derivative it is refused *)
Theorem C70_unary_refused : forall n u t rest, (exists f, u = UPoint f) \/ (exists f, u = UExt f) -> (0 < xd t)%nat \/ (0 < yd t)%nat ->
  np_call (S n) u (PT t :: rest) = Some (Raise InvalidOperation).
Proof. exact unary_raises. Qed.
(** array + tensor, array - tensor *)
Theorem C70_array_left_add : forall n t a, wf t -> to_features t -> posl (shp a) -> shp a <> [] -> shp (tv t) <> [] ->
  compat t (arrT a) -> dcompat (den t) (den (arrT a)) ->
  (exists v, np_call (S n) UAdd [PArr a; PT t] = Some (Ok v) /\ dsame (vden v) (dbin Rplus (vden (PArr a)) (den t))) /\
  (exists v, np_call (S n) USub [PArr a; PT t] = Some (Ok v) /\ dsame (vden v) (dbin Rminus (vden (PArr a)) (den t))).
Proof.
  intros n t a W F P R R' C DC. assert (P1 : dpos (den t)) by now apply wf_dpos. assert (P2 : dpos (den (arrT a))) by (apply wf_dpos; now apply arrT_wf). split.
  - destruct (C52_add t (arrT a) ADD W (arrT_wf a P) F (arrT_tf a) C DC R' eq_refl) as (v & E & D & _). exists v. rewrite (left_operand n UAdd ADD) by (auto; discriminate).
    rewrite tbin_arr_T by auto. rewrite E. split; [reflexivity|]. now apply (left_dsame UAdd ADD).
  - destruct (C52_add t (arrT a) RSUB W (arrT_wf a P) F (arrT_tf a) C DC R' eq_refl) as (v & E & D & _). exists v. rewrite (left_operand n USub RSUB) by (auto; discriminate).
    rewrite tbin_arr_T by auto. rewrite E. split; [reflexivity|]. now apply (left_dsame USub RSUB).
Qed.
(** array * tensor, and array / tensor for a tensor without diagonal axes *)
Theorem C70_array_left_mul : forall n t a, wf t -> to_features t -> posl (shp a) -> shp a <> [] -> shp (tv t) <> [] ->
  compat t (arrT a) -> dcompat (den t) (den (arrT a)) ->
  (exists r, np_call (S n) UMul [PArr a; PT t] = Some (Ok (PT r)) /\ wf r /\ dsame (den r) (dbin Rmult (vden (PArr a)) (den t))) /\
  (xm t = [] -> ym t = [] -> exists r, np_call (S n) UDiv [PArr a; PT t] = Some (Ok (PT r)) /\ wf r /\ dsame (den r) (dbin Rdiv (vden (PArr a)) (den t))).
Proof.
  intros n t a W F P R R' C DC. assert (P1 : dpos (den t)) by now apply wf_dpos. assert (P2 : dpos (den (arrT a))) by (apply wf_dpos; now apply arrT_wf).
  assert (A1 : same_or_absent (xm t) (xm (arrT a)) (sX t) (sX (arrT a))) by (right; left; auto).
  assert (A2 : same_or_absent (ym t) (ym (arrT a)) (sY t) (sY (arrT a))) by (right; left; auto). split; [|intros Mx My].
  - destruct (C53_mul t (arrT a) MUL W (arrT_wf a P) F (arrT_tf a) C R' R A1 A2 (or_introl eq_refl)) as (v & E & Wv & _ & D). exists v. rewrite (left_operand n UMul MUL) by (auto; discriminate).
    rewrite tbin_arr_T by auto. rewrite E. split; [reflexivity|]. split; [exact Wv|]. now apply (left_dsame UMul MUL).
  - destruct (C53_mul t (arrT a) RDIV W (arrT_wf a P) F (arrT_tf a) C R' R A1 A2) as (v & E & Wv & _ & D); [right; right; auto|]. exists v. rewrite (left_operand n UDiv RDIV) by (auto; discriminate).
    rewrite tbin_arr_T by auto. rewrite E. split; [reflexivity|]. split; [exact Wv|]. now apply (left_dsame UDiv RDIV).
Qed.
(** number + tensor, number - tensor, number * tensor *)
Theorem C70_number_left : forall n t c u f, wf t -> (u = UAdd /\ f = Rplus) \/ (u = USub /\ f = Rminus) \/ (u = UMul /\ f = Rmult /\ c <> 0) ->
  exists r a b, np_call (S n) u [PNum c; PT t] = Some (Ok (PT r)) /\ wf r /\ toarray t = Ok a /\ toarray r = Ok b /\ shp b = shp a /\
    forall i, In i (indices (shp a)) -> el b i = f c (el a i).
Proof.
  intros n t c u f W H.
  assert (Q : exists op, uop u = Some op /\ ubin u = Some f /\ (additive op = true \/ ((op = MUL \/ op = DIV) /\ c <> 0))).
  { destruct H as [[-> ->]|[[-> ->]|(-> & -> & H)]]; eexists; (split; [reflexivity|]); (split; [reflexivity|]); auto. }
  destruct Q as (op & U & B & A). destruct (C51_scalar t c op W A) as (r & a & b & E & Wr & Ea & Eb & S & V). exists r, a, b.
  rewrite (left_operand n u op) by (auto; discriminate). rewrite E. repeat (split; [auto|]). intros i Hi. rewrite V by auto. symmetry. now apply (uop_fun u op f).
Qed.
(** maximum, minimum of a tensor and a number *)
Theorem C70_extremum : forall n f t c, wf t -> xd t = 0%nat -> yd t = 0%nat ->
  exists r, np_call (S (S n)) (UExt f) [PT t; PNum c] = Some (Ok (PT r)) /\ wf r /\ dm r = dm t /\ dsame (den r) (dmap (fun v => f v c) (den t)).
Proof. exact extremum_num. Qed.
(** deviation: with the tensor as second argument, or two tensors, it recurses for ever *)
Theorem C70_extremum_right_never_returns : forall f t, xd t = 0%nat -> yd t = 0%nat -> forall fuel a,
  as_array a <> None \/ (exists s, a = PT s /\ xd s = 0%nat /\ yd s = 0%nat) -> np_call fuel (UExt f) [a; PT t] = None.
Proof. exact extremum_loops. Qed.
(** deviation: a ufunc called with a tensor first ignores its second argument:
    np.add(t, b) is t + t, np.subtract(t, b) is t - t *)
Theorem C70_second_argument_ignored : forall n u op t b, uop u = Some op -> np_call (S n) u [PT t; b] = Some (tbin t (PT t) op).
Proof. intros n u op t b U. now apply tensor_first. Qed.
Print Assumptions C70_unary. Print Assumptions C70_unary_refused. Print Assumptions C70_array_left_add. Print Assumptions C70_array_left_mul.
Print Assumptions C70_number_left. Print Assumptions C70_extremum. Print Assumptions C70_extremum_right_never_returns. Print Assumptions C70_second_argument_ignored.
Definition arr0 : nda := mkA [2; 1]%nat (fun i => INR (10 + nth 0 i 0%nat)).
Example C70_nonvacuous :
  (exists r, np_call 1 (UPoint exp) [PT val0] = Some (Ok (PT r)) /\ at_ (den r) [] [] [1; 0]%nat [] = exp (entry [1; 0]%nat)) /\
  (exists r, np_call 1 UMul [PArr arr0; PT dg0] = Some (Ok (PT r)) /\ at_ (den r) [1%nat] [] [1; 1]%nat [] = 11 * entry [0; 1; 1]%nat) /\
  (exists v, np_call 1 USub [PArr arr0; PT dg0] = Some (Ok v) /\ get (vden v) [0%nat] [] [1; 1]%nat [] = 11) /\
  (exists r, np_call 1 UAdd [PT (tnum 2); PNum 5] = Some (Ok (PT r)) /\ at_ (den r) [] [] [] [] = 4).
Proof.
  assert (C : compat dg0 (arrT arr0)) by cps.
  assert (DC : dcompat (den dg0) (den (arrT arr0))) by (constructor; cbn; bcs).
  assert (P : posl (shp arr0)) by (repeat constructor).
  destruct (C70_array_left_mul 0 dg0 arr0 dg0_wf dg0_tf P ltac:(discriminate) ltac:(discriminate) C DC) as [(r & Er & _ & E1 & E2 & E3 & E4 & V) _].
  destruct (C70_array_left_add 0 dg0 arr0 dg0_wf dg0_tf P ltac:(discriminate) ltac:(discriminate) C DC) as [_ (w & Ew & F1 & F2 & F3 & F4 & U)].
  split; [|split; [|split]].
  - destruct (C70_unary 0 exp val0 val0_wf eq_refl eq_refl) as (q & Eq & _ & _ & G1 & G2 & G3 & G4 & G). exists q. split; [exact Eq|].
    rewrite G; [|rewrite ?G1, ?G2, ?G3, ?G4; cbn; auto..]. cbn -[entry]. f_equal. ring.
  - exists r. split; [exact Er|]. rewrite V; [|rewrite ?E1, ?E2, ?E3, ?E4; cbn; auto 10..]. cbn -[entry INR]. unfold delta. cbn -[entry INR]. replace (INR 11) with 11 by (cbn; lra). ring.
  - exists w. split; [exact Ew|]. unfold get. rewrite U; [|rewrite ?F1, ?F2, ?F3, ?F4; cbn; auto 10..]. rewrite F1, F2, F3, F4. cbn -[entry INR]. unfold delta. cbn -[entry INR]. replace (INR 11) with 11 by (cbn; lra). ring.
  - cbn [np_call overrider uop tbin]. unfold tbin_t. cbn [tnum tv np_scalar shp]. unfold tbin_num. cbn [el np_scalar tnum tv]. destruct (Req_EM_T 2 0); [lra|]. destruct (Req_EM_T 2 1); [lra|]. cbn.
    eexists. split; [reflexivity|]. cbn. lra.
Qed.

(** *** C71: t ** a and float(t) *)
Theorem C71_pow : forall t a, wf t -> (1 <= a)%nat \/ (unmapped (xm t) /\ unmapped (ym t)) ->
  exists r p q, tpow t a = Ok r /\ wf r /\ toarray t = Ok p /\ toarray r = Ok q /\ shp q = shp p /\
    forall i, In i (indices (shp p)) -> el q i = el p i ^ a.
Proof. intros t a W H. destruct (tpow_ok t a W H) as (r & Er & Wr & D). destruct (toarray_map t r _ W Wr D) as (p & q & Q). exists r, p, q. tauto. Qed.
(** deviation: the power 0 of a diagonal keeps the zeros off the diagonal *)
Theorem C71_pow_zero_wrong : exists t r p q i, wf t /\ tpow t 0 = Ok r /\ toarray t = Ok p /\ toarray r = Ok q /\ In i (indices (shp p)) /\ el p i ^ 0 = 1 /\ el q i = 0.
Proof.
  destruct (toarray_den dg0 dg0_wf) as (p & Ep & Sp & Vp).
  assert (exists r, tpow dg0 0 = Ok r /\ wf r /\ den r = den (mkT (mkA [1; 2; 2]%nat (fun i => entry i ^ 0)) 1 0 2 0 [Some 0%nat] [])).
  { eexists. split; [reflexivity|]. split; [wft|reflexivity]. }
  destruct H as (r & Er & Wr & Dr). destruct (toarray_den r Wr) as (q & Eq & Sq & Vq). rewrite Dr in Sq, Vq.
  exists dg0, r, p, q, [0; 1; 0]%nat. split; [exact dg0_wf|]. split; [exact Er|]. split; [exact Ep|]. split; [exact Eq|].
  split; [rewrite Sp; cbn; auto 10|]. split; [reflexivity|]. specialize (Vq [0%nat] [] [1; 0]%nat []). cbn [app] in Vq. rewrite Vq; [|cbn; auto..]. cbn. unfold delta. cbn. ring.
Qed.
Print Assumptions C71_pow. Print Assumptions C71_pow_zero_wrong.
Example C71_nonvacuous : exists r, tpow dg0 2 = Ok r /\ at_ (den r) [1%nat] [] [1; 0]%nat [] = entry [0; 1; 0]%nat ^ 2 /\ at_ (den r) [0%nat] [] [1; 0]%nat [] = 0 /\ tfloat (tnum 3) = Ok 3.
Proof.
  destruct (tpow_ok dg0 2 dg0_wf (or_introl (le_S _ _ (le_n _)))) as (r & Er & _ & E1 & E2 & E3 & E4 & V). exists r. split; [exact Er|].
  split; [|split; [|reflexivity]]; (rewrite V; [|rewrite ?E1, ?E2, ?E3, ?E4; cbn; auto..]); cbn -[entry]; unfold delta; cbn -[entry]; ring.
Qed.

(** *** C72: dot chooses the contraction from the axes of its operands *)
(** [other] without y axes: the x axes of self against the features of other *)
Theorem C72_dot_left : forall s o, wf s -> wf o -> to_features s -> to_features o -> contractible s o -> yd o = 0%nat ->
  (xm s = [] \/ chained (xm s) (xm o)) -> is_zero0 (tv s) = false ->
  exists r, tdot s (PT o) = Ok (PT r) /\ wf r /\ to_features r /\ dsame (den r) (ddot_left (den s) (den o)).
Proof. exact tdot_is_left. Qed.
(** [other] a second derivative *)
Theorem C72_dot_right : forall s o, wf s -> wf o -> to_features s -> to_features o -> contractible s o -> yd s = 0%nat ->
  is_zero0 (tv o) = false -> is_zero0 (tv s) = false -> (0 < xd s)%nat -> (0 < xd o)%nat -> (0 < yd o)%nat ->
  chained (xm s) (xm o) -> chained (xm s) (ym o) -> (xm s = [] -> xm o = [] /\ ym o = []) ->
  exists r, tdot s (PT o) = Ok (PT r) /\ wf r /\ to_features r /\ dsame (den r) (ddot_right (den s) (den o)).
Proof. exact tdot_is_right. Qed.
(** both with y axes only: the same with x and y exchanged *)
Theorem C72_dot_transposed : forall s o, wf s -> wf o -> to_features s -> to_features o -> xd s = 0%nat -> xd o = 0%nat -> (0 < yd o)%nat ->
  contractible (swapxy s) (swapxy o) -> (ym s = [] \/ chained (ym s) (ym o)) -> is_zero0 (tv s) = false ->
  exists r, tdot s (PT o) = Ok (PT r) /\ wf r /\ to_features r /\ dsame (den r) (dtrans (ddot_left (den (swapxy s)) (den (swapxy o)))) /\
    dsame (den (swapxy s)) (dtrans (den s)) /\ dsame (den (swapxy o)) (dtrans (den o)).
Proof.
  intros s o Ws Wo Fs Fo Xs Xo Yo C M Z. destruct (tdot_transposed s o Ws Wo Fs Fo Xs Xo Yo C M Z) as (r & Er & Wr & Fr & Dr). exists r.
  split; [exact Er|]. split; [exact Wr|]. split; [exact Fr|]. split; [exact Dr|]. split; [now apply (swapxy_wf s Ws (or_introl Xs))|now apply (swapxy_wf o Wo (or_introl Xo))].
Qed.
(** the zero tensor absorbs; nothing to contract raises *)
Theorem C72_zero : forall s o, is_zero0 (tv s) = true -> tdot s o = Ok (PT s).
Proof. exact tdot_zero. Qed.
Theorem C72_no_axes_raises : forall s o, is_zero0 (tv s) = false -> is_zero0 (tv o) = false -> (dm s = 0%nat \/ dm o = 0%nat \/ dm s = dm o) ->
  xd o = 0%nat -> yd o = 0%nat -> nn o <> xd s -> nn o <> yd s -> tdot s (PT o) = Raise ValueError.
Proof.
  intros s o Zs Zo D X Y N1 N2. unfold tdot. rewrite Zs. cbn [pxd pyd pnn pdm].
  replace (Nat.eqb (dm s) 0 || Nat.eqb (dm o) 0 || Nat.eqb (dm s) (dm o)) with true.
  2:{ symmetry. destruct D as [-> | [-> | ->]]; rewrite ?Nat.eqb_refl, ?orb_true_r; reflexivity. }
  cbn [py_assert rbind]. rewrite X, Y. cbn [Nat.ltb Nat.leb andb]. destruct (Nat.eqb_spec (nn o) (xd s)); [congruence|]. destruct (Nat.eqb_spec (nn o) (yd s)); [congruence|]. rewrite andb_false_r, Zo. reflexivity.
Qed.
Print Assumptions C72_dot_left. Print Assumptions C72_dot_right. Print Assumptions C72_dot_transposed. Print Assumptions C72_zero. Print Assumptions C72_no_axes_raises.
Definition outer_y : tensor := swapxy outer.
Definition inner_y : tensor := swapxy inner.
Example C72_nonvacuous :
  (exists r, tdot outer (PT inner) = Ok (PT r) /\ at_ (den r) [1%nat] [] [1%nat] [] = entry [0; 1]%nat * entry [0; 1]%nat) /\
  (exists r, tdot outer (PT hess1) = Ok (PT r) /\ at_ (den r) [1%nat] [1%nat] [1%nat] [] = entry [0; 0; 1]%nat * entry [0; 1]%nat) /\
  (exists r, tdot outer_y (PT inner_y) = Ok (PT r) /\ yd r = 1%nat /\ at_ (den r) [] [1%nat] [1%nat] [] = entry [0; 1]%nat * entry [0; 1]%nat) /\
  tdot val0 (PT (mkT (mkA [2]%nat entry) 0 0 1 0 [] [])) = Raise ValueError.
Proof.
  assert (Wi : wf inner) by wft. assert (Wu : wf outer) by wft. assert (Ti : to_features inner) by tft. assert (Tu : to_features outer) by tft.
  assert (CC : contractible outer inner).
  { constructor; cbn; [reflexivity|repeat (constructor; [left; reflexivity|]); constructor|bcs| |ful|ful].
    intros [|[|j]] f; cbn; intros; try discriminate. lia. }
  assert (CH : contractible outer hess1).
  { constructor; cbn; [reflexivity|repeat (constructor; [left; reflexivity|]); constructor|bcs| |ful|ful].
    intros [|[|j]] f; cbn; intros; try discriminate. lia. }
  assert (Ch : forall m, m = [Some 0%nat] -> chained [Some 0%nat] m) by (intros m -> j [<-|[]]; exists 0%nat; reflexivity).
  split; [|split; [|split]].
  - destruct (C72_dot_left outer inner Wu Wi Tu Ti CC eq_refl (or_intror (Ch _ eq_refl)) eq_refl) as (r & Er & _ & _ & E1 & E2 & E3 & E4 & V). exists r. split; [exact Er|].
    rewrite V; [|rewrite ?E1, ?E2, ?E3, ?E4; cbn; auto..]. cbn -[entry]. unfold delta. cbn -[entry]. ring.
  - destruct (C72_dot_right outer hess1 Wu hess1_wf Tu hess1_tf CH eq_refl eq_refl eq_refl (le_n _) (le_n _) (le_n _) (Ch _ eq_refl) (Ch _ eq_refl) ltac:(discriminate)) as (r & Er & _ & _ & E1 & E2 & E3 & E4 & V).
    exists r. split; [exact Er|]. rewrite V; [|rewrite ?E1, ?E2, ?E3, ?E4; cbn; auto..]. cbn -[entry]. unfold delta. cbn -[entry]. ring.
  - assert (Wiy : wf inner_y) by wft. assert (Wuy : wf outer_y) by wft. assert (Tiy : to_features inner_y) by tft. assert (Tuy : to_features outer_y) by tft.
    destruct (C72_dot_transposed outer_y inner_y Wuy Wiy Tuy Tiy eq_refl eq_refl (le_n _) CC (or_intror (Ch _ eq_refl)) eq_refl) as (r & Er & _ & _ & (E1 & E2 & E3 & E4 & V) & _).
    exists r. split; [exact Er|]. split; [vm_compute in Er; injection Er as <-; reflexivity|]. rewrite V; [|rewrite ?E1, ?E2, ?E3, ?E4; cbn; auto..]. cbn -[entry]. unfold delta. cbn -[entry]. ring.
  - apply C72_no_axes_raises; cbn; auto; discriminate.
Qed.
