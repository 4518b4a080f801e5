(** Properties C51-C59 and C69 (maxlike/tensor): every operation on the compressed
    representation (diagonal axes stored with size 1) computes the operation of
    the same name on the dense arrays of DenseModel.  [den t] is the dense array a
    Tensor stands for (TensorSpec); [dsame] is equality of shape and entries. *)
From Verif Require Import Prelude DenseModel DenseProofs NDArray NDProofs TensorModel TensorSpec TensorSpecOps TensorLemmas TensorBasic TensorSum TensorSumMain TensorShape TensorExpand TensorBin TensorArith TensorMore TensorDiag TensorDotCore TensorDot TensorGeneric TensorGSum TensorGUni TensorFindings.
From Coq Require Import Reals Lra.
Import List ListNotations.
Open Scope R_scope.

(** Tensors used in the examples: a gradient that is diagonal along feature 0 (1)
    of two features, one stored in full, one with a dim axis. *)
Definition entry (i : idx) : R := INR (fold_left (fun a k => 3 * a + k)%nat i 1%nat).
Definition dg0 : tensor := mkT (mkA [1; 2; 2]%nat entry) 1 0 2 0 [Some 0%nat] [].
Definition dg1 : tensor := mkT (mkA [1; 2; 2]%nat entry) 1 0 2 0 [Some 1%nat] [].
Definition fl0 : tensor := mkT (mkA [2; 2; 2]%nat entry) 1 0 2 0 [] [].
Definition dgd : tensor := mkT (mkA [1; 2; 2; 3]%nat entry) 1 0 2 1 [Some 1%nat] [].
Definition hs0 : tensor := mkT (mkA [1; 1; 2; 2]%nat entry) 1 1 2 0 [Some 0%nat] [Some 1%nat].
Definition val0 : tensor := mkT (mkA [2; 2]%nat entry) 0 0 2 0 [] [].
Ltac fin := repeat match goal with
  | |- _ /\ _ => split | |- Forall _ [] => constructor | |- Forall _ (_ :: _) => constructor
  | |- NoDup [] => constructor | |- NoDup (_ :: _) => constructor
  | |- ~ _ => intros HH; cbn in HH; lia
  | |- _ = _ => reflexivity
  end; try lia; auto.
Ltac wft := constructor; cbn; [reflexivity|fin|unfold map_ok; cbn; fin|unfold map_ok; cbn; fin].
Lemma dg0_wf : wf dg0. Proof. wft. Qed.
Lemma dg1_wf : wf dg1. Proof. wft. Qed.
Lemma fl0_wf : wf fl0. Proof. wft. Qed.
Lemma dgd_wf : wf dgd. Proof. wft. Qed.
Lemma hs0_wf : wf hs0. Proof. wft. Qed.
Lemma val0_wf : wf val0. Proof. wft. Qed.
Ltac tft := split; cbn; fin.
Lemma dg0_tf : to_features dg0. Proof. tft. Qed.
Lemma dg1_tf : to_features dg1. Proof. tft. Qed.
Lemma fl0_tf : to_features fl0. Proof. tft. Qed.
Lemma dgd_tf : to_features dgd. Proof. tft. Qed.
Lemma hs0_tf : to_features hs0. Proof. tft. Qed.
Lemma val0_tf : to_features val0. Proof. tft. Qed.

(** *** C51: toarray, negation, scalars, drop_dim *)
Theorem C51_toarray : forall t, wf t -> exists a, toarray t = Ok a /\
  shp a = xs (den t) ++ ys (den t) ++ ns (den t) ++ ds (den t) /\
  forall x y n d, In x (indices (xs (den t))) -> In y (indices (ys (den t))) -> In n (indices (ns (den t))) -> In d (indices (ds (den t))) ->
    el a (x ++ y ++ n ++ d) = at_ (den t) x y n d.
Proof. exact toarray_den. Qed.
(** t + c, t - c, c - t, t * c, t / c *)
Theorem C51_scalar : forall t c op, wf t -> additive op = true \/ ((op = MUL \/ op = DIV) /\ c <> 0) ->
  exists r a b, tbin t (PNum c) op = Ok (PT r) /\ wf r /\ toarray t = Ok a /\ toarray r = Ok b /\ shp b = shp a /\
    forall i, In i (indices (shp a)) -> el b i = op_fun op (el a i) c.
Proof.
  intros t c op W H. assert (E : exists r, tbin_num t c op = Ok r /\ wf r /\ dsame (den r) (dmap (fun v => op_fun op v c) (den t))).
  { destruct H as [H|[H Hc]]; [now apply tbin_add_num|now apply tbin_mul_num]. }
  destruct E as (r & Er & Wr & D). destruct (toarray_map t r _ W Wr D) as (a & b & Q). exists r, a, b. cbn [tbin tbin1]. rewrite Er. tauto.
Qed.
(** c / t for a tensor without diagonal axes (off a diagonal the dense quotient is infinite) *)
Theorem C51_rdiv : forall t c, wf t -> unmapped (xm t) -> unmapped (ym t) -> c <> 0 ->
  exists r a b, tbin t (PNum c) RDIV = Ok (PT r) /\ wf r /\ toarray t = Ok a /\ toarray r = Ok b /\ shp b = shp a /\
    forall i, In i (indices (shp a)) -> el b i = c / el a i.
Proof.
  intros t c W Ux Uy Hc. destruct (tbin_rdiv_num t c W Ux Uy Hc) as (r & Er & Wr & D). destruct (toarray_map t r _ W Wr D) as (a & b & Q).
  exists r, a, b. cbn [tbin tbin1]. rewrite Er. tauto.
Qed.
(** t * 0 is the number 0 stored as a rank-0 Tensor; t / 0 raises *)
Theorem C51_zero : forall t, tbin t (PNum 0) MUL = Ok (PT (tnum 0)) /\ toarray (tnum 0) = Ok (np_scalar 0) /\ tbin t (PNum 0) DIV = Raise ZeroDivisionError.
Proof. intros t. cbn [tbin tbin1]. unfold tbin_num. destruct (Req_EM_T 0 0); [|congruence]. auto. Qed.
Theorem C51_neg : forall t, wf t -> exists r a b, tneg t = Ok r /\ wf r /\ toarray t = Ok a /\ toarray r = Ok b /\ shp b = shp a /\
  forall i, In i (indices (shp a)) -> el b i = - el a i.
Proof. intros t W. destruct (tneg_ok t W) as (r & Er & Wr & D). destruct (toarray_map t r _ W Wr D) as (a & b & Q). exists r, a, b. tauto. Qed.
Theorem C51_drop_dim : forall t, wf t -> exists r a b, tdrop t = Ok r /\ dm r = 0%nat /\ nn r = (nn t + dm t)%nat /\ toarray t = Ok a /\ toarray r = Ok b /\ shp b = shp a /\
  forall i, In i (indices (shp a)) -> el b i = el a i.
Proof.
  intros t W. destruct (tdrop_ok t W) as (r & Er & Wr & D). exists r.
  destruct (toarray_den t W) as (a & Ea & Sa & Va). destruct (toarray_den r Wr) as (b & Eb & Sb & Vb). exists a, b.
  split; [exact Er|]. unfold tdrop, Tensor in Er. destruct (Nat.ltb _ _); [discriminate|]. inversion Er as [Er']. rewrite Er' in *. pose proof (wf_len t W) as Lt.
  split; [now rewrite <- Er'|]. split; [rewrite <- Er'; cbn [nn]; unfold ndim; lia|].
  split; [exact Ea|]. split; [exact Eb|]. destruct D as (E1 & E2 & E3 & E4 & V). cbn [ddrop xs ys ns ds at_] in *.
  split; [rewrite Sa, Sb, E1, E2, E3, E4, app_nil_r; reflexivity|]. rewrite Sa. intros i Hi.
  apply in_indices_app in Hi as [Hx Hi]. apply in_indices_app in Hi as [Hy Hi].
  set (x := firstn _ i) in *. set (i1 := skipn (length (xs (den t))) i) in *. set (y := firstn _ i1) in *. set (i2 := skipn (length (ys (den t))) i1) in *.
  assert (Ei : i = x ++ y ++ i2) by (unfold x, y, i2, i1; now rewrite !firstn_skipn).
  rewrite Ei. pose proof Hi as Hi'. apply in_indices_app in Hi' as [Hn Hd]. rewrite <- (firstn_skipn (length (ns (den t))) i2) at 2. rewrite Va by auto.
  rewrite <- (app_nil_r i2) at 1. rewrite Vb.
  - apply V; rewrite ?E1, ?E2, ?E3, ?E4; auto. now left.
  - now rewrite E1. - now rewrite E2. - now rewrite E3. - rewrite E4. now left.
Qed.
Print Assumptions C51_toarray. Print Assumptions C51_scalar. Print Assumptions C51_rdiv. Print Assumptions C51_zero. Print Assumptions C51_neg. Print Assumptions C51_drop_dim.
(** a diagonal: off the diagonal the dense entry is 0, and adding 5 gives 5 there *)
Example C51_nonvacuous : wf dg0 /\ wf dgd /\ xs (den dg0) = [2%nat] /\
  at_ (den dg0) [0%nat] [] [1%nat; 1%nat] [] = 0 /\ at_ (den dg0) [1%nat] [] [1%nat; 1%nat] [] = entry [0; 1; 1]%nat /\
  (exists r, tbin dg0 (PNum 5) ADD = Ok (PT r) /\ at_ (den r) [0%nat] [] [1%nat; 1%nat] [] = 5).
Proof.
  split; [exact dg0_wf|]. split; [exact dgd_wf|]. split; [reflexivity|].
  split; [cbn; unfold delta; cbn; ring|]. split; [cbn; unfold delta; cbn; ring|].
  destruct (tbin_add_num dg0 5 ADD dg0_wf eq_refl) as (r & Er & _ & D). exists r. cbn [tbin tbin1]. rewrite Er. split; [reflexivity|].
  destruct D as (E1 & E2 & E3 & E4 & V). rewrite V.
  - cbn. unfold delta. cbn. ring.
  - rewrite E1. cbn. auto. - rewrite E2. cbn. auto. - rewrite E3. cbn. auto. - rewrite E4. cbn. auto.
Qed.

(** *** C52: a + b, a - b, b - a (as one Tensor or as a formal sum) *)
Lemma dbin_rank0 f s o : wf s -> wf o -> shp (tv o) = [] -> dsame (dmap (fun v => f v (el (tv o) [])) (den s)) (dbin f (den s) (den o)).
Proof.
  intros Ws Wo E. pose proof (wf_groups o Wo) as G. pose proof (wf_len o Wo) as L. rewrite E in L. cbn in L.
  assert (S0 : sX o = [] /\ sY o = [] /\ sN o = [] /\ sD o = []) by (unfold sX, sY, sN, sD; rewrite E; rewrite !skipn_nil, !firstn_nil; auto).
  destruct S0 as (S1 & S2 & S3 & S4). assert (M : xm o = [] /\ ym o = []).
  { destruct (wf_x o Wo) as [A _], (wf_y o Wo) as [B _]. rewrite S1 in A. rewrite S2 in B. destruct (xm o) as [|[?|] ?], (ym o) as [|[?|] ?]; cbn in *; tauto. }
  destruct M as [M1 M2]. destruct (den_groups _ _ _ _ _ G) as (D1 & D2 & D3 & D4). rewrite S1, S2, S3, S4, M1, M2 in *. cbn [msizes] in *.
  repeat split; cbn [dmap dbin xs ys ns ds at_]; rewrite ?D1, ?D2, ?D3, ?D4, ?bmax_nil_r; auto.
  intros x y n d Hx Hy Hn Hd. unfold get at 1. rewrite (clamp_in _ x), (clamp_in _ y), (clamp_in _ n), (clamp_in _ d) by auto. f_equal.
  unfold get. rewrite D1, D2, D3, D4. cbn [clamp]. unfold den. cbn [at_]. rewrite M1, M2. cbn [stored deltas app]. ring.
Qed.
(** a formal sum left in place of a sum of Tensors whose diagonals differ *)
Theorem C52_add : forall s o op, wf s -> wf o -> to_features s -> to_features o -> compat s o -> dcompat (den s) (den o) ->
  shp (tv s) <> [] -> additive op = true ->
  exists v, tbin s (PT o) op = Ok v /\ dsame (vden v) (dbin (op_fun op) (den s) (den o)) /\
    ((xm s = xm o /\ ym s = ym o) -> exists r, v = PT r /\ wf r /\ xm r = xm s /\ ym r = ym s).
Proof.
  intros s o op Ws Wo Fs Fo C DC R A. cbn [tbin]. unfold tbin_t. destruct (shp (tv o)) as [|h l] eqn:Eo.
  - destruct (tbin_add_num s (el (tv o) []) op Ws A) as (r & Er & Wr & D). rewrite Er. cbn [rbind]. exists (PT r). split; [reflexivity|]. cbn [vden]. split.
    + eapply dsame_trans; [exact D|]. now apply dbin_rank0.
    + intros [Ex Ey]. exists r. split; [reflexivity|]. split; [exact Wr|].
      assert (M : xm o = [] /\ ym o = []).
      { destruct (wf_x o Wo) as [A1 _], (wf_y o Wo) as [B1 _]. unfold sX in A1. unfold sY in B1. rewrite Eo in A1, B1. rewrite firstn_nil in A1. rewrite skipn_nil, firstn_nil in B1. destruct (xm o) as [|[?|] ?], (ym o) as [|[?|] ?]; cbn in *; tauto. }
      destruct M as [M1 M2]. rewrite Ex, Ey, M1, M2. unfold tbin_num in Er. rewrite A in Er. rewrite M1 in Ex. rewrite M2 in Ey.
      destruct (Req_EM_T (el (tv o) []) 0); [destruct op; try discriminate A|].
      * injection Er as <-. auto. * injection Er as <-. auto.
      * unfold tneg, Tensor in Er. destruct (Nat.ltb _ _); [discriminate|]. injection Er as <-. auto.
      * assert (Z : (if Req_EM_T (el (tv o) []) 1 then match op with MUL | DIV => true | _ => false end else false) = false).
        { destruct (Req_EM_T (el (tv o) []) 1); [destruct op; try reflexivity; discriminate A|reflexivity]. }
        rewrite Z in Er.
        match type of Er with rbind ?e _ = _ => destruct e as [v0|] end; cbn [rbind] in Er; [|discriminate]. unfold Tensor in Er. destruct (Nat.ltb _ _); [discriminate|]. injection Er as <-. auto.
  - destruct (list_eq_dec (fun a b : option nat => ltac:(decide equality; apply Nat.eq_dec)) (xm s) (xm o)) as [Ex|Nx];
    [destruct (list_eq_dec (fun a b : option nat => ltac:(decide equality; apply Nat.eq_dec)) (ym s) (ym o)) as [Ey|Ny]|].
    + destruct (tadd_same s o op Ws Wo Fs Fo C R A Ex Ey) as (r & Er & Wr & _ & M1 & M2 & D). exists (PT r). split; [exact Er|]. split; [exact D|]. intros _. exists r. auto.
    + destruct (tadd_diff s o op Ws Wo DC R A (or_intror Ny)) as (v & Ev & D). exists v. split; [exact Ev|]. split; [exact D|]. tauto.
    + destruct (tadd_diff s o op Ws Wo DC R A (or_introl Nx)) as (v & Ev & D). exists v. split; [exact Ev|]. split; [exact D|]. tauto.
Qed.
(** any mixture of Tensors and formal sums *)
Theorem C52_formal : forall S a b op, spos S -> vfits S a -> vfits S b -> op = ADD \/ op = SUB ->
  exists v, pbin a b op = Ok v /\ vfits S v /\ dsame (vden v) (dbin (op_fun op) (vden a) (vden b)).
Proof. exact padd_ok. Qed.
Print Assumptions C52_add. Print Assumptions C52_formal.
Lemma F2_bc l : Forall2 bcompat l l. Proof. induction l; constructor; auto. now left. Qed.
Lemma cp_same s : compat s s.
Proof. constructor; try (right; right; apply F2_bc); intros f _; lia. Qed.
Lemma bc1 s : bcompat 1 s. Proof. right; left; reflexivity. Qed.
Lemma bc2 s : bcompat s 1. Proof. right; right; reflexivity. Qed.
Lemma bc3 s : bcompat s s. Proof. left; reflexivity. Qed.
Ltac bcs := first [left; reflexivity | right; left; reflexivity | right; right; repeat (apply Forall2_cons; [first [apply bc3|apply bc1|apply bc2]|]); apply Forall2_nil].
Ltac ful := let f := fresh in let Hf := fresh in intros f Hf; cbn in Hf; repeat destruct Hf as [<-|Hf]; try contradiction; cbn; lia.
Ltac cps := constructor; cbn; [bcs|bcs|bcs|bcs|ful|ful|ful|ful].
Ltac blw := first [left; reflexivity | right; repeat (apply Forall2_cons; [first [right; reflexivity|left; reflexivity]|]); apply Forall2_nil].
Lemma cp01 : compat dg0 dg1. Proof. cps. Qed.
Lemma cp0f : compat dg0 fl0. Proof. cps. Qed.
Lemma cpf0 : compat fl0 dg0. Proof. cps. Qed.
Lemma cp0v : compat dg0 val0. Proof. cps. Qed.
Example C52_nonvacuous :
  (exists v, tbin dg0 (PT dg1) ADD = Ok v /\ get (vden v) [1%nat] [] [1%nat; 1%nat] [] = 2 * entry [0; 1; 1]%nat) /\
  (exists r, tbin dg0 (PT dg0) SUB = Ok (PT r) /\ xm r = [Some 0%nat]) /\
  let S := SH [2%nat] [] [2%nat; 2%nat] [] in spos S /\ vfits S (PT dg0) /\ vfits S (PG (mkG 1 0 2 0 [IT dg0; IT dg1])).
Proof.
  assert (DC : dcompat (den dg0) (den dg1)) by (constructor; cbn; bcs).
  split; [|split].
  - destruct (C52_add dg0 dg1 ADD dg0_wf dg1_wf dg0_tf dg1_tf cp01 DC ltac:(discriminate) eq_refl) as (v & Ev & D & _). exists v. split; [exact Ev|].
    destruct D as (E1 & E2 & E3 & E4 & V). unfold get. rewrite E1, E2, E3, E4. cbn [dbin xs ys ns ds bmax den]. cbn [dg0 dg1 xm sX sN sD msizes tv shp xd yd nn dm firstn skipn app nth clamp plus Nat.max].
    rewrite V; [|rewrite ?E1, ?E2, ?E3, ?E4; cbn; auto..]. cbn. unfold delta. cbn. ring.
  - destruct (C52_add dg0 dg0 SUB dg0_wf dg0_wf dg0_tf dg0_tf (cp_same dg0) ltac:(constructor; cbn; bcs) ltac:(discriminate) eq_refl) as (v & Ev & D & M).
    destruct (M (conj eq_refl eq_refl)) as (r & -> & _ & Mx & _). exists r. auto.
  - assert (F0 : fits (SH [2%nat] [] [2%nat; 2%nat] []) dg0).
    { constructor; [exact dg0_wf|exact dg0_tf|discriminate| | | | |]; cbn.
      - blw. - blw. - blw. - blw.
      - intros f [[<-|[]]|[]]. reflexivity. }
    assert (F1 : fits (SH [2%nat] [] [2%nat; 2%nat] []) dg1).
    { constructor; [exact dg1_wf|exact dg1_tf|discriminate| | | | |]; cbn.
      - blw. - blw. - blw. - blw.
      - intros f [[<-|[]]|[]]. reflexivity. }
    cbv zeta. split; [|split].
    + repeat split; cbn; repeat constructor. + exact F0.
    + cbn. constructor; [exists dg0; auto|]. constructor; [exists dg1; auto|]. constructor.
Qed.

(** *** C53: products and quotients *)
Theorem C53_mul : forall s o op, wf s -> wf o -> to_features s -> to_features o -> compat s o -> shp (tv s) <> [] -> shp (tv o) <> [] ->
  same_or_absent (xm s) (xm o) (sX s) (sX o) -> same_or_absent (ym s) (ym o) (sY s) (sY o) -> divisible s o op ->
  exists r, tbin s (PT o) op = Ok (PT r) /\ wf r /\ to_features r /\ dsame (den r) (dbin (op_fun op) (den s) (den o)).
Proof. intros s o op Ws Wo Fs Fo C R R' Mx My D. destruct (tmul_ok s o op Ws Wo Fs Fo C R Mx My D) as (r & E & Q). exists r. split; [|exact Q]. cbn [tbin]. unfold tbin_t. destruct (shp (tv o)); [congruence|exact E]. Qed.
(** a diagonal times a tensor stored in full: its diagonal is extracted *)
Theorem C53_extract : forall s o, wf s -> wf o -> to_features s -> to_features o -> compat s o -> shp (tv s) <> [] ->
  extractable s o -> same_or_absent (ym s) (ym o) (sY s) (sY o) ->
  exists r, tbin s (PT o) MUL = Ok (PT r) /\ wf r /\ to_features r /\ dsame (den r) (dbin Rmult (den s) (den o)).
Proof.
  intros s o Ws Wo Fs Fo C R E M. destruct (tmul_extract_ok s o Ws Wo Fs Fo C R E M) as (r & Er & Q). exists r. split; [|exact Q]. cbn [tbin]. unfold tbin_t. destruct (shp (tv o)) eqn:Z; [|exact Er].
  exfalso. destruct E as [Em _ Fd _]. unfold sX in Fd. rewrite Z, firstn_nil in Fd. destruct (xm s) as [|[?|] ?]; [congruence|exact Fd|exact Fd].
Qed.
Theorem C53_extract_left : forall s o, wf s -> wf o -> to_features s -> to_features o -> compat s o -> shp (tv o) <> [] ->
  extractable o s -> same_or_absent (ym s) (ym o) (sY s) (sY o) ->
  exists r, tbin s (PT o) MUL = Ok (PT r) /\ wf r /\ to_features r /\ dsame (den r) (dbin Rmult (den s) (den o)).
Proof.
  intros s o Ws Wo Fs Fo C R E M. assert (R' : shp (tv s) <> []).
  { intros Z. destruct E as [Em _ Fd _]. unfold sX in Fd. rewrite Z, firstn_nil in Fd. destruct (xm o) as [|[?|] ?]; [congruence|exact Fd|exact Fd]. }
  destruct (tmul_extract_r_ok s o Ws Wo Fs Fo C R' E M) as (r & Er & Q). exists r. split; [|exact Q]. cbn [tbin]. unfold tbin_t. destruct (shp (tv o)) eqn:Z; [congruence|exact Er].
Qed.
(** an operand that is a number *)
Theorem C53_rank0 : forall s o, wf s -> wf o -> shp (tv s) = [] -> shp (tv o) <> [] ->
  exists r, tbin s (PT o) MUL = Ok (PT r) /\ wf r /\ dsame (den r) (dbin Rmult (den s) (den o)).
Proof. intros s o Ws Wo Z R. destruct (tbin_rank0 s o MUL Ws Wo Z (or_introl eq_refl)) as (r & E & W & _ & D). exists r. split; [|auto]. cbn [tbin]. unfold tbin_t. destruct (shp (tv o)); [congruence|exact E]. Qed.
Print Assumptions C53_mul. Print Assumptions C53_extract. Print Assumptions C53_extract_left. Print Assumptions C53_rank0.
(** dg0 (diagonal) times fl0 (stored in full), entry x = 1, n = (1,0) *)
Example C53_nonvacuous :
  (exists r, tbin dg0 (PT fl0) MUL = Ok (PT r) /\ at_ (den r) [1%nat] [] [1%nat; 0%nat] [] = entry [0; 1; 0]%nat * entry [1; 1; 0]%nat /\ at_ (den r) [0%nat] [] [1%nat; 0%nat] [] = 0) /\
  (exists r, tbin fl0 (PT dg0) MUL = Ok (PT r) /\ xs (den r) = [2%nat]) /\
  (exists r, tbin dg0 (PT val0) MUL = Ok (PT r) /\ at_ (den r) [1%nat] [] [1%nat; 0%nat] [] = entry [0; 1; 0]%nat * entry [1; 0]%nat).
Proof.
  assert (EX : extractable dg0 fl0).
  { constructor; [discriminate|reflexivity|cbn; repeat split; lia|]. intros f [<-|[]]. cbn. split; [lia|reflexivity]. }
  split; [|split].
  - destruct (C53_extract dg0 fl0 dg0_wf fl0_wf dg0_tf fl0_tf cp0f ltac:(discriminate) EX (or_introl eq_refl)) as (r & Er & _ & _ & E1 & E2 & E3 & E4 & V).
    exists r. split; [exact Er|]. split; (rewrite V; [|rewrite ?E1, ?E2, ?E3, ?E4; cbn; auto..]; cbn; unfold delta; cbn; ring).
  - destruct (C53_extract_left fl0 dg0 fl0_wf dg0_wf fl0_tf dg0_tf cpf0 ltac:(discriminate) EX (or_introl eq_refl)) as (r & Er & _ & _ & E1 & _). exists r. split; [exact Er|exact E1].
  - destruct (C53_mul dg0 val0 MUL dg0_wf val0_wf dg0_tf val0_tf cp0v ltac:(discriminate) ltac:(discriminate)) as (r & Er & _ & _ & E1 & E2 & E3 & E4 & V).
    { right; left; auto. } { left; reflexivity. } { left; reflexivity. }
    exists r. split; [exact Er|]. rewrite V; [|rewrite ?E1, ?E2, ?E3, ?E4; cbn; auto..]. cbn. unfold delta. cbn. ring.
Qed.

(** *** C54: sums over the features and the dim axes *)
Theorem C54_sum : forall t (sd : bool), wf t -> to_features t ->
  exists r, tsum t SVTrue sd = Ok r /\ wf r /\ xm r = [] /\ ym r = [] /\ dsame (den r) (dsum_axes (den t) true sd).
Proof. exact tsum_ok. Qed.
Theorem C54_sum_dims : forall t, wf t -> to_features t ->
  exists r, tsum t SVFalse true = Ok r /\ wf r /\ to_features r /\ dsame (den r) (dsum_axes (den t) false true).
Proof. exact tsum_dims_ok. Qed.
(** the sum of any expression built with +, - and negation *)
Theorem C54_sum_formal : forall S n d e (sd : bool), spos S -> Forall (fits S) (leaves e) -> Forall (fun t => nn t = n /\ dm t = d) (leaves e) ->
  exists v t, pyeval e = Ok v /\ psum v sd = Ok (PT t) /\ wf t /\ dsame (den t) (dsum_axes (meaning e) true sd).
Proof. exact expr_sum_ok. Qed.
Print Assumptions C54_sum. Print Assumptions C54_sum_dims. Print Assumptions C54_sum_formal.
(** hs0 is diagonal in x along feature 0 and in y along feature 1; its sum is the matrix of its entries *)
Example C54_nonvacuous : wf hs0 /\ to_features hs0 /\
  exists r, tsum hs0 SVTrue true = Ok r /\ at_ (den r) [1%nat] [0%nat] [] [] = entry [0; 0; 1; 0]%nat.
Proof.
  split; [exact hs0_wf|]. split; [exact hs0_tf|]. destruct (tsum_ok hs0 true hs0_wf hs0_tf) as (r & Er & _ & _ & _ & E1 & E2 & E3 & E4 & V).
  exists r. split; [exact Er|]. rewrite V; [|rewrite ?E1, ?E2, ?E3, ?E4; cbn; auto..]. cbn. unfold delta. cbn. ring.
Qed.

(** *** C55: expand *)
Theorem C55_expand : forall t w m, wf t -> to_features t -> NoDup w -> Forall (fun k => k < m)%nat w -> length w = nn t -> is_zero0 (tv t) = false ->
  exists r, texpand t w m false = Ok r /\ wf r /\ to_features r /\ dsame (den r) (dexpand (den t) w m).
Proof. exact texpand_ok. Qed.
Theorem C55_expand_dim : forall t w m, wf t -> to_features t -> NoDup w -> Forall (fun k => k < m)%nat w -> length w = dm t -> is_zero0 (tv t) = false ->
  exists r, texpand t w m true = Ok r /\ wf r /\ to_features r /\ dsame (den r) (dexpand_dim (den t) w m).
Proof. exact texpand_dim_ok. Qed.
Theorem C55_errors : forall t w m (dim : bool),
  ((exists k, In k w /\ (m <= k)%nat) -> texpand t w m dim = Raise AssertionError) /\
  (Forall (fun k => k < m)%nat w -> is_zero0 (tv t) = true -> texpand t w m dim = Ok (tnum 0)) /\
  (Forall (fun k => k < m)%nat w -> is_zero0 (tv t) = false -> length w <> (if dim then dm t else nn t) -> texpand t w m dim = Raise AssertionError).
Proof.
  intros t w m dim. unfold texpand. repeat split.
  - intros (k & Hk & Hm). replace (forallb _ w) with false; [reflexivity|]. symmetry. apply not_true_is_false. intros H.
    rewrite forallb_forall in H. specialize (H k Hk). apply Nat.ltb_lt in H. lia.
  - intros F Z. replace (forallb _ w) with true by (symmetry; apply forallb_forall; intros k Hk; apply Nat.ltb_lt; exact (proj1 (Forall_forall _ _) F k Hk)). cbn [negb]. now rewrite Z.
  - intros F Z L. replace (forallb _ w) with true by (symmetry; apply forallb_forall; intros k Hk; apply Nat.ltb_lt; exact (proj1 (Forall_forall _ _) F k Hk)). cbn [negb]. rewrite Z.
    destruct dim.
    + destruct (Nat.eqb_spec (length w) (dm t)); [contradiction|reflexivity].
    + destruct (Nat.eqb_spec (length w) (nn t)); [contradiction|reflexivity].
Qed.
Print Assumptions C55_expand. Print Assumptions C55_expand_dim. Print Assumptions C55_errors.
(** features (0,1) of a diagonal moved to positions (2,0) of three *)
Example C55_nonvacuous : exists r, texpand dg0 [2; 0]%nat 3 false = Ok r /\ xm r = [Some 2%nat] /\
  at_ (den r) [1%nat] [] [0; 0; 1]%nat [] = entry [0; 1; 0]%nat.
Proof.
  destruct (texpand_ok dg0 [2; 0]%nat 3 dg0_wf dg0_tf ltac:(fin) ltac:(fin) eq_refl eq_refl) as (r & Er & _ & _ & E1 & E2 & E3 & E4 & V).
  exists r. split; [exact Er|]. split; [cbn in Er; injection Er as <-; reflexivity|].
  rewrite V; [|rewrite ?E1, ?E2, ?E3, ?E4; cbn; auto..]. cbn. unfold delta. cbn. ring.
Qed.

(** *** C56: flip *)
Theorem C56_flip : forall t w, wf t -> to_features t -> Forall (fun k => k < nn t)%nat w ->
  (forall k, In k w -> ~ In k (targets (xm t)) /\ ~ In k (targets (ym t))) ->
  exists r, tflip t w false = Ok r /\ wf r /\ to_features r /\ dsame (den r) (dflip (den t) w).
Proof. exact tflip_ok. Qed.
Theorem C56_flip_dim : forall t w, wf t -> to_features t -> Forall (fun k => k < dm t)%nat w ->
  exists r, tflip t w true = Ok r /\ wf r /\ to_features r /\ dsame (den r) (dflip_dim (den t) w).
Proof. intros t w W F H. destruct (tflip_dim_ok t w W F H) as (r & E & Wr & Fr & _ & _ & _ & _ & D). exists r. auto. Qed.
Theorem C56_flip_twice : forall t w, wf t -> to_features t -> Forall (fun k => k < nn t)%nat w ->
  (forall k, In k w -> ~ In k (targets (xm t)) /\ ~ In k (targets (ym t))) ->
  exists r r', tflip t w false = Ok r /\ tflip r w false = Ok r' /\ dsame (den r') (den t).
Proof. exact tflip_twice. Qed.
Theorem C56_flip_dim_twice : forall t w, wf t -> to_features t -> Forall (fun k => k < dm t)%nat w ->
  exists r r', tflip t w true = Ok r /\ tflip r w true = Ok r' /\ dsame (den r') (den t).
Proof. exact tflip_dim_twice. Qed.
Theorem C56_mapped : forall t w k, In k w -> In k (targets (xm t)) \/ In k (targets (ym t)) -> tflip t w false = Raise NotImplementedError.
Proof. exact tflip_mapped. Qed.
Print Assumptions C56_flip. Print Assumptions C56_flip_dim. Print Assumptions C56_flip_twice. Print Assumptions C56_flip_dim_twice. Print Assumptions C56_mapped.
Example C56_nonvacuous : (exists r, tflip dg0 [1%nat] false = Ok r /\ at_ (den r) [1%nat] [] [1; 0]%nat [] = entry [0; 1; 1]%nat) /\
  (exists r, tflip dgd [0%nat] true = Ok r /\ at_ (den r) [1%nat] [] [0; 1]%nat [0%nat] = entry [0; 0; 1; 2]%nat) /\
  tflip dg0 [1; 0]%nat false = Raise NotImplementedError.
Proof.
  split; [|split].
  - destruct (tflip_ok dg0 [1%nat] dg0_wf dg0_tf ltac:(cbn; fin)) as (r & Er & _ & _ & E1 & E2 & E3 & E4 & V). { intros k [<-|[]]. cbn. split; intros []; lia. }
    exists r. split; [exact Er|]. rewrite V; [|rewrite ?E1, ?E2, ?E3, ?E4; cbn; auto..]. cbn. unfold delta. cbn. ring.
  - destruct (C56_flip_dim dgd [0%nat] dgd_wf dgd_tf ltac:(cbn; fin)) as (r & Er & _ & _ & E1 & E2 & E3 & E4 & V).
    exists r. split; [exact Er|]. rewrite V; [|rewrite ?E1, ?E2, ?E3, ?E4; cbn; auto..]. cbn. unfold delta. cbn. ring.
  - reflexivity.
Qed.

(** *** C57: transpose *)
Theorem C57_transpose : forall t, wf t -> transposable t ->
  exists r, ttranspose t = Ok r /\ wf r /\ (to_features t -> to_features r) /\ dsame (den r) (dtrans (den t)).
Proof. exact ttranspose_ok. Qed.
Theorem C57_twice : forall t, wf t -> transposable t -> exists r r', ttranspose t = Ok r /\ ttranspose r = Ok r' /\ dsame (den r') (den t).
Proof. exact ttranspose_twice. Qed.
Print Assumptions C57_transpose. Print Assumptions C57_twice.
Example C57_nonvacuous : transposable hs0 /\ exists r, ttranspose hs0 = Ok r /\ xm r = [Some 1%nat] /\ at_ (den r) [0%nat] [1%nat] [1; 0]%nat [] = entry [0; 0; 1; 0]%nat.
Proof.
  assert (T : transposable hs0) by (right; right; left; auto). split; [exact T|]. destruct (ttranspose_ok hs0 hs0_wf T) as (r & Er & _ & _ & E1 & E2 & E3 & E4 & V).
  exists r. split; [exact Er|]. split; [cbn in Er; injection Er as <-; reflexivity|]. rewrite V; [|rewrite ?E1, ?E2, ?E3, ?E4; cbn; auto..]. cbn. unfold delta. cbn. ring.
Qed.

(** *** C58: dot_left contracts the x axes of self with the features of other *)
Theorem C58_dot_left : forall s o, wf s -> wf o -> to_features s -> to_features o -> contractible s o -> yd o = 0%nat ->
  (xm s = [] \/ chained (xm s) (xm o)) ->
  exists r, tdot_left_any s (PT o) = Ok (PT r) /\ wf r /\ to_features r /\ dsame (den r) (ddot_left (den s) (den o)).
Proof. intros s o Ws Wo Fs Fo C Y M. destruct (tdot_left_ok s o Ws Wo Fs Fo C Y M) as (r & E & Q). exists r. cbn [tdot_left_any]. rewrite E. auto. Qed.
(** self has the features of other on its y axes: it is transposed first *)
Theorem C58_dot_left_transposed : forall s o, wf s -> wf o -> to_features s -> to_features o -> transposable s -> yd o = 0%nat ->
  xd s <> nn o -> yd s = nn o -> (ym s = [] \/ chained (ym s) (xm o)) ->
  Forall2 bcompat (sN o) (ys (den s)) -> bok (sD o) (sD s) ->
  (forall j f, nth_error (ym s) j = Some (Some f) -> nth j (sN o) 1 <= nth j (ys (den s)) 1)%nat ->
  full (xm o) (sN o) (ys (den s)) ->
  exists r, tdot_left_any s (PT o) = Ok (PT r) /\ wf r /\ to_features r /\ dsame (den r) (ddot_left (dtrans (den s)) (den o)).
Proof.
  intros s o Ws Wo Fs Fo T Y N1 N2 M B1 B2 H1 H2. destruct (tdot_left_transposed s o Ws Wo Fs Fo T Y N1 N2 M B1 B2 H1 H2) as (r & E & Q). exists r. cbn [tdot_left_any]. rewrite E. auto.
Qed.
Print Assumptions C58_dot_left. Print Assumptions C58_dot_left_transposed.
(** the chain rule of a composition: an outer gradient (x along its only feature)
    against an inner gradient that is itself a diagonal *)
Definition outer : tensor := mkT (mkA [1; 2]%nat entry) 1 0 1 0 [Some 0%nat] [].
Definition inner : tensor := mkT (mkA [1; 2]%nat entry) 1 0 1 0 [Some 0%nat] [].
Definition outer_full : tensor := mkT (mkA [2; 3]%nat entry) 1 0 1 0 [] [].
Lemma outer_wf : wf outer. Proof. wft. Qed.
Lemma outer_tf : to_features outer. Proof. tft. Qed.
Lemma outer_full_wf : wf outer_full. Proof. wft. Qed.
Lemma outer_full_tf : to_features outer_full. Proof. tft. Qed.
Example C58_nonvacuous :
  (exists r, tdot_left_any outer (PT inner) = Ok (PT r) /\ xm r = [Some 0%nat] /\ at_ (den r) [1%nat] [] [1%nat] [] = entry [0; 1]%nat * entry [0; 1]%nat) /\
  (exists r, tdot_left_any outer_full (PT inner) = Ok (PT r) /\ at_ (den r) [1%nat] [] [2%nat] [] = entry [0; 1]%nat * entry [1; 2]%nat).
Proof.
  split.
  - destruct (tdot_left_ok outer inner outer_wf outer_wf outer_tf outer_tf) as (r & Er & _ & _ & E1 & E2 & E3 & E4 & V).
    { constructor; [reflexivity|cbn; repeat (apply Forall2_cons; [apply bc3|]); constructor|cbn; bcs| | |].
      - intros [|[|]] f H; cbn in H |- *; try discriminate; lia. - ful. - ful. }
    { reflexivity. } { right. intros j [<-|[]]. exists 0%nat. reflexivity. }
    exists r. cbn [tdot_left_any]. split; [rewrite Er; reflexivity|]. split; [cbn in Er; injection Er as <-; reflexivity|].
    rewrite V; [|rewrite ?E1, ?E2, ?E3, ?E4; cbn; auto..]. cbn. unfold delta. cbn. ring.
  - destruct (tdot_left_ok outer_full inner outer_full_wf outer_wf outer_full_tf outer_tf) as (r & Er & _ & _ & E1 & E2 & E3 & E4 & V).
    { constructor; [reflexivity|cbn; repeat (apply Forall2_cons; [apply bc3|]); constructor|cbn; bcs| | |].
      - intros [|[|]] f H; cbn in H |- *; try discriminate; lia. - ful. - ful. }
    { reflexivity. } { left. reflexivity. }
    exists r. cbn [tdot_left_any]. split; [rewrite Er; reflexivity|].
    rewrite V; [|rewrite ?E1, ?E2, ?E3, ?E4; cbn; auto..]. cbn. unfold delta. cbn. ring.
Qed.

(** *** C59: dot_right contracts the x axes of self with the features of a second derivative *)
Theorem C59_dot_right : forall s o, wf s -> wf o -> to_features s -> to_features o -> contractible s o -> yd s = 0%nat ->
  is_zero0 (tv o) = false ->
  chained (xm s) (xm o) -> chained (xm s) (ym o) -> (xm s = [] -> xm o = [] /\ ym o = []) ->
  exists r, tdot_right_any s (PT o) = Ok (PT r) /\ wf r /\ to_features r /\ dsame (den r) (ddot_right (den s) (den o)).
Proof. exact tdot_right_ok. Qed.
(** a second derivative that is the number 0 *)
Theorem C59_zero : forall s o, is_zero0 (tv o) = true -> tdot_right_any s (PT o) = Ok (PNum 0).
Proof. exact tdot_right_zero. Qed.
(** when self has no diagonal axis but other has one, it raises *)
Lemma compose_nil_raises m : targets m <> [] -> compose_mappings [] m = Raise IndexError.
Proof.
  unfold compose_mappings. induction m as [|[f|] m IH]; cbn [targets rmapM]; intros H; [congruence| |].
  - now destruct f.
  - cbn [rbind]. now rewrite IH.
Qed.
Lemma rbind_raise {A B} (x : res A) (k : A -> res B) : (forall a, exists e, k a = Raise e) -> exists e, rbind x k = Raise e.
Proof. intros H. destruct x as [a|e]; cbn [rbind]; [apply H|eauto]. Qed.
Theorem C59_unmapped_raises : forall s o, xm s = [] -> is_zero0 (tv o) = false -> targets (xm o) <> [] \/ targets (ym o) <> [] ->
  exists e, tdot_right_any s (PT o) = Raise e.
Proof.
  intros s o Ms Z T. cbn [tdot_right_any]. unfold tdot_right. rewrite Z, Ms. destruct (negb _); [eauto|]. destruct (negb _); [eauto|].
  do 6 (apply rbind_raise; intros ?). destruct T as [T|T].
  - rewrite compose_nil_raises by auto. cbn [rbind]. eauto.
  - apply rbind_raise; intros ?. rewrite compose_nil_raises by auto. cbn [rbind]. eauto.
Qed.
Theorem C59_mismatch_raises : forall s o, is_zero0 (tv o) = false -> yd s <> 0%nat \/ xd s <> nn o -> tdot_right_any s (PT o) = Raise AssertionError.
Proof.
  intros s o Z H. cbn [tdot_right_any]. unfold tdot_right. rewrite Z. destruct (Nat.eqb_spec (yd s) 0); cbn [negb]; [|reflexivity].
  destruct (Nat.eqb_spec (xd s) (nn o)); cbn [negb]; [|reflexivity]. tauto.
Qed.
Print Assumptions C59_dot_right. Print Assumptions C59_zero. Print Assumptions C59_unmapped_raises. Print Assumptions C59_mismatch_raises.
Definition hess1 : tensor := mkT (mkA [1; 1; 2]%nat entry) 1 1 1 0 [Some 0%nat] [Some 0%nat].
Lemma hess1_wf : wf hess1. Proof. wft. Qed.
Lemma hess1_tf : to_features hess1. Proof. tft. Qed.
Example C59_nonvacuous :
  (exists r, tdot_right_any outer (PT hess1) = Ok (PT r) /\ at_ (den r) [1%nat] [1%nat] [1%nat] [] = entry [0; 0; 1]%nat * entry [0; 1]%nat /\
     at_ (den r) [0%nat] [1%nat] [1%nat] [] = 0) /\
  tdot_right_any outer_full (PT hess1) = Raise ValueError /\ tdot_right_any outer_full (PT inner) = Raise IndexError.
Proof.
  split; [|split; reflexivity].
  destruct (tdot_right_ok outer hess1 outer_wf hess1_wf outer_tf hess1_tf) as (r & Er & _ & _ & E1 & E2 & E3 & E4 & V).
  { constructor; [reflexivity|cbn; repeat (apply Forall2_cons; [apply bc3|]); constructor|cbn; bcs| | |].
    - intros [|[|]] f H; cbn in H |- *; try discriminate; lia. - ful. - ful. }
  { reflexivity. } { reflexivity. } { intros j [<-|[]]. exists 0%nat. reflexivity. } { intros j [<-|[]]. exists 0%nat. reflexivity. } { discriminate. }
  exists r. split; [exact Er|]. split; (rewrite V; [|rewrite ?E1, ?E2, ?E3, ?E4; cbn; auto..]; cbn; unfold delta; cbn; ring).
Qed.

(** *** C69: arithmetic expressions *)
Theorem C69_expressions : forall S e, spos S -> Forall (fits S) (leaves e) ->
  exists v, pyeval e = Ok v /\ vfits S v /\ dsame (vden v) (meaning e).
Proof. exact expr_ok. Qed.
Print Assumptions C69_expressions.
Example C69_nonvacuous : let S := SH [2%nat] [] [2%nat; 2%nat] [] in let e := TensorSpecOps.Sub (TensorSpecOps.Add (Leaf dg0) (TensorSpecOps.Neg (Leaf dg1))) (TensorSpecOps.Add (Leaf fl0) (Leaf dg0)) in
  spos S /\ Forall (fits S) (leaves e) /\ get (meaning e) [1%nat] [] [1; 0]%nat [] = - entry [1; 1; 0]%nat /\
  exists v, pyeval e = Ok v /\ dsame (vden v) (meaning e).
Proof.
  cbv zeta. assert (PS : spos (SH [2%nat] [] [2%nat; 2%nat] [])) by (repeat split; cbn; repeat constructor).
  assert (F : Forall (fits (SH [2%nat] [] [2%nat; 2%nat] [])) (leaves (TensorSpecOps.Sub (TensorSpecOps.Add (Leaf dg0) (TensorSpecOps.Neg (Leaf dg1))) (TensorSpecOps.Add (Leaf fl0) (Leaf dg0))))).
  { assert (F0 : fits (SH [2%nat] [] [2%nat; 2%nat] []) dg0).
    { constructor; [exact dg0_wf|exact dg0_tf|discriminate|cbn; blw|cbn; blw|cbn; blw|cbn; blw|]. cbn. intros f [[<-|[]]|[]]. reflexivity. }
    assert (F1 : fits (SH [2%nat] [] [2%nat; 2%nat] []) dg1).
    { constructor; [exact dg1_wf|exact dg1_tf|discriminate|cbn; blw|cbn; blw|cbn; blw|cbn; blw|]. cbn. intros f [[<-|[]]|[]]. reflexivity. }
    assert (F2 : fits (SH [2%nat] [] [2%nat; 2%nat] []) fl0).
    { constructor; [exact fl0_wf|exact fl0_tf|discriminate|cbn; blw|cbn; blw|cbn; blw|cbn; blw|]. cbn. intros f [[]|[]]. }
    cbn [leaves app]. auto. }
  split; [exact PS|]. split; [exact F|]. split; [cbn; unfold delta; cbn; ring|].
  destruct (expr_ok _ _ PS F) as (v & E & _ & D). eauto.
Qed.

(** *** Limits of the hypotheses (concrete inputs, TensorFindings) *)
(** C52: a number on the left of a diagonal, as a rank-0 Tensor *)
Theorem C52_number_left_wrong : exists s o r, wf s /\ wf o /\ tbin s (PT o) ADD = Ok (PT r) /\ ~ dsame (den r) (dbin Rplus (den s) (den o)).
Proof.
  destruct rank0_left_wrong as (r & E & V1 & V2). exists (tnum 5), tm0, r. split; [wft|]. split; [wft|]. split; [exact E|].
  intros (E1 & E2 & E3 & E4 & V). unfold dadd in V2. rewrite <- V in V2; [lra|rewrite ?E1, ?E2, ?E3, ?E4; cbn; auto..].
Qed.
(** C53: a diagonal to be extracted along a feature that broadcasts; with two axes
    after it; along y when there is an x axis *)
Theorem C53_extraction_limits :
  (exists s o r, wf s /\ wf o /\ compat s o /\ tbin s (PT o) MUL = Ok (PT r) /\ ~ dsame (den r) (dbin Rmult (den s) (den o)) /\ nth 0 (sN o) 0%nat = 1%nat) /\
  (exists s o r, wf s /\ wf o /\ compat s o /\ tbin s (PT o) MUL = Ok (PT r) /\ ~ dsame (den r) (dbin Rmult (den s) (den o)) /\ sN s = sN o /\ nn s = 3%nat) /\
  (exists s o r, wf s /\ wf o /\ compat s o /\ tbin s (PT o) MUL = Ok (PT r) /\ ~ dsame (den r) (dbin Rmult (den s) (den o)) /\ sN s = sN o /\ xm s = [] /\ xm o = []).
Proof.
  destruct codes_differ as (N1 & N2 & N3). split; [|split].
  - destruct extract_broadcast_wrong as (r & E & V1 & V2). exists tm0, tc, r. split; [wft|]. split; [wft|]. split; [cps|]. split; [exact E|]. split; [|reflexivity].
    intros (E1 & E2 & E3 & E4 & V). unfold dmul in V2. rewrite <- V in V2; [|rewrite ?E1, ?E2, ?E3, ?E4; cbn; auto..].
    rewrite V1 in V2. apply Rmult_eq_reg_l in V2; [contradiction|]. apply not_0_INR. cbn. discriminate.
  - destruct extract_axes_wrong as (r & E & V1 & V2). exists tm3, tf3, r. split; [wft|]. split; [wft|]. split; [cps|]. split; [exact E|]. split; [|split; reflexivity].
    intros (E1 & E2 & E3 & E4 & V). unfold dmul in V2. rewrite <- V in V2; [|rewrite ?E1, ?E2, ?E3, ?E4; cbn; auto 10..]. congruence.
  - destruct extract_y_wrong as (r & E & _ & _ & V1 & V2). exists ymh, yfull, r. split; [wft|]. split; [wft|]. split; [cps|]. split; [exact E|]. split; [|repeat split; reflexivity].
    intros (E1 & E2 & E3 & E4 & V). unfold dmul in V2. rewrite <- V in V2; [|rewrite ?E1, ?E2, ?E3, ?E4; cbn; auto 10..]. congruence.
Qed.
(** C54: summing one feature while another one carries a diagonal *)
Theorem C54_one_feature_wrong : exists t r, wf t /\ to_features t /\ tsum t (SVInt 1) false = Ok r /\ xs (den t) = [2%nat] /\ xs (den r) = [1%nat].
Proof. destruct partial_sum_wrong as (E1 & E2 & _). exists tm0. destruct (tsum tm0 (SVInt 1) false) as [r|] eqn:E; [|discriminate]. exists r. split; [wft|]. split; [tft|]. split; [reflexivity|]. split; [exact E1|]. now inversion E2. Qed.
(** C57: two x axes and one y axis *)
Theorem C57_larger_wrong : exists t r, wf t /\ ttranspose t = Ok r /\ ys (den r) = rev (xs (den t)) /\ ys (den r) <> xs (den t).
Proof. destruct transpose_wrong as (E1 & _). exists t23. destruct (ttranspose t23) as [r|] eqn:E; [|discriminate]. exists r. split; [wft|]. split; [reflexivity|]. assert (H2 : ys (den r) = [3; 2]%nat) by (injection E1; intros; assumption). rewrite H2. split; [reflexivity|discriminate]. Qed.
Print Assumptions C52_number_left_wrong. Print Assumptions C53_extraction_limits. Print Assumptions C54_one_feature_wrong. Print Assumptions C57_larger_wrong.
