(** C90 (maxlike/tensor/tensor.py 233-282): GenericTensor.sum over the dim axes only, and
    over one of several features.  [dsum_axes a false true] adds up the dim axes of a
    dense array; [uniform g]: x_dim, y_dim are those of the dense array and every element
    has n feature and dim dim axes (TensorSpecOps). *)
From Verif Require Import Prelude DenseModel DenseProofs NDArray NDProofs TensorModel TensorSpec TensorSpecOps TensorLemmas TensorArith TensorGeneric TensorGOps TensorGDims Props_Tensor.
From Coq Require Import Reals Lra.
Import List ListNotations.
Open Scope R_scope.

(** g.sum(False, True): an element stored with size 1 along a dim axis counts as often
    as the axis is long *)
Theorem C90_sum_dims : forall S g, spos S -> gfits S g -> uniform g -> els g <> [] -> (0 < gn g)%nat ->
  exists g', gsum g SVFalse true = Ok (PG g') /\ gfits (SH (SX S) (SY S) (SN S) []) g' /\ dsame (gden g') (dsum_axes (gden g) false true) /\
    gx g' = gx g /\ gy g' = gy g /\ gn g' = gn g /\ gd g' = 0%nat /\ length (els g') = length (els g).
Proof. exact gsum_dims_ok. Qed.
(** g.sum(k, False) with two or more features, all of full size: the elements come back
    unchanged, nothing is summed *)
Theorem C90_one_feature_refuted : forall S g k, spos S -> gfits S g -> uniform g -> els g <> [] -> (2 <= gn g)%nat -> gd g = 0%nat -> (k < gn g)%nat ->
  (forall t, In (IT t) (els g) -> sN t = ns (gden g)) ->
  exists g', gsum g (SVInt k) false = Ok (PG g') /\ els g' = els g /\ ns (gden g') = ns (gden g).
Proof. exact gsum_one_feature. Qed.
Print Assumptions C90_sum_dims. Print Assumptions C90_one_feature_refuted.
Example C90_nonvacuous :
  let S := SH [2%nat] [] [2%nat; 2%nat] [3%nat] in
  let g := mkG 1 0 2 1 [IT dgd; IT (mkT (mkA [2; 2; 2; 1]%nat entry) 1 0 2 1 [] [])] in
  let g2 := mkG 1 0 2 0 [IT dg1; IT fl0] in
  spos S /\ gfits S g /\ uniform g /\ gfits S g2 /\ uniform g2 /\ (forall t, In (IT t) (els g2) -> sN t = ns (gden g2)) /\
  (exists g', gsum g SVFalse true = Ok (PG g') /\ at_ (gden g') [1%nat] [] [0; 1]%nat [] =
     entry [0; 0; 1; 0]%nat + entry [0; 0; 1; 1]%nat + entry [0; 0; 1; 2]%nat + 3 * entry [1; 0; 1; 0]%nat) /\
  (exists g', gsum g2 (SVInt 1) false = Ok (PG g') /\ at_ (gden g') [1%nat] [] [0; 1]%nat [] = entry [0; 0; 1]%nat + entry [1; 0; 1]%nat).
Proof.
  intros S g g2. set (q := mkT (mkA [2; 2; 2; 1]%nat entry) 1 0 2 1 [] []) in *.
  assert (Fp : fits S dgd). { constructor; [exact dgd_wf|exact dgd_tf|discriminate| | | | |]; cbn; [blw|blw|blw|blw|]. intros f [[<-|[]]|[]]. reflexivity. }
  assert (Fq : fits S q). { constructor; [wft|tft|discriminate| | | | |]; cbn; [blw|blw|blw|blw|]. intros f [[]|[]]. }
  assert (F1 : fits S dg1). { constructor; [exact dg1_wf|tft|discriminate| | | | |]; cbn; [blw|blw|blw|now left|]. intros f [[<-|[]]|[]]. reflexivity. }
  assert (Ff : fits S fl0). { constructor; [exact fl0_wf|tft|discriminate| | | | |]; cbn; [blw|blw|blw|now left|]. intros f [[]|[]]. }
  assert (PS : spos S) by (repeat split; cbn; repeat constructor).
  assert (G : gfits S g) by (constructor; [exists dgd; auto|constructor; [exists q; auto|constructor]]).
  assert (G2 : gfits S g2) by (constructor; [exists dg1; auto|constructor; [exists fl0; auto|constructor]]).
  assert (U : uniform g). { constructor; [reflexivity|reflexivity|]. intros t [E|[E|[]]]; injection E as <-; split; reflexivity. }
  assert (U2 : uniform g2). { constructor; [reflexivity|reflexivity|]. intros t [E|[E|[]]]; injection E as <-; split; reflexivity. }
  assert (Fu : forall t, In (IT t) (els g2) -> sN t = ns (gden g2)). { intros t [E|[E|[]]]; injection E as <-; reflexivity. }
  split; [exact PS|]. split; [exact G|]. split; [exact U|]. split; [exact G2|]. split; [exact U2|]. split; [exact Fu|]. split.
  - destruct (C90_sum_dims S g PS G U ltac:(discriminate) ltac:(cbn; lia)) as (g' & E & _ & (E1 & E2 & E3 & E4 & V) & _).
    exists g'. split; [exact E|]. rewrite V; [|rewrite ?E1, ?E2, ?E3, ?E4; cbn; auto 20..]. cbn -[entry]. unfold delta. cbn -[entry]. ring.
  - destruct (C90_one_feature_refuted S g2 1%nat PS G2 U2 ltac:(discriminate) ltac:(cbn; lia) eq_refl ltac:(cbn; lia) Fu) as (g' & E & Ee & _).
    exists g'. split; [exact E|]. unfold gden. rewrite Ee. cbn -[entry]. unfold delta. cbn -[entry]. ring.
Qed.
