(** C87 (maxlike/tensor/tensor.py 229-231, 284-304): reshaping a formal sum
    (GenericTensor) and converting it to an array.  [gden g] is the dense array the
    formal sum stands for; [dtrans], [ddrop], [dexpand], [dflip] are the operations on
    dense arrays (DenseModel); [gfits S g]: every element is a well-formed Tensor that
    broadcasts to the common shape S (TensorSpecOps); [elements P g]: every element
    satisfies P. *)
From Verif Require Import Prelude DenseModel DenseProofs NDArray NDProofs TensorModel TensorSpec TensorSpecOps TensorLemmas TensorArith TensorShape TensorGeneric TensorGOps TensorGArr Props_Tensor.
From Coq Require Import Reals Lra.
Import List ListNotations.
Open Scope R_scope.

(** g.transpose() *)
Theorem C87_transpose : forall S g, spos S -> gfits S g -> elements transposable g ->
  exists g', gtranspose g = Ok g' /\ gfits (SH (SY S) (SX S) (SN S) (SD S)) g' /\ dsame (gden g') (dtrans (gden g)) /\
    gx g' = gy g /\ gy g' = gx g /\ gn g' = gn g /\ gd g' = gd g.
Proof. exact gtranspose_ok. Qed.
(** g.drop_dim(): every element has all the feature and dim axes *)
Theorem C87_drop_dim : forall S g, spos S -> gfits S g -> elements (fun t => nn t = length (SN S) /\ dm t = length (SD S)) g ->
  exists g', gdrop g = Ok g' /\ gfits (SH (SX S) (SY S) (SN S ++ SD S) []) g' /\ dsame (gden g') (ddrop (gden g)) /\
    gx g' = gx g /\ gy g' = gy g /\ gn g' = (gn g + gd g)%nat /\ gd g' = 0%nat.
Proof. exact gdrop_ok. Qed.
(** g.flip(w): no diagonal runs along a reversed feature; g.flip(w, dim=True) *)
Theorem C87_flip : forall S g w, spos S -> gfits S g -> Forall (fun j => j < length (SN S))%nat w ->
  elements (fun t => nn t = length (SN S) /\ forall j, In j w -> ~ In j (targets (xm t)) /\ ~ In j (targets (ym t))) g ->
  exists g', gflip g w false = Ok g' /\ gfits S g' /\ dsame (gden g') (dflip (gden g) w) /\ gx g' = gx g /\ gy g' = gy g /\ gn g' = gn g /\ gd g' = gd g.
Proof. exact gflip_ok. Qed.
Theorem C87_flip_dim : forall S g w, spos S -> gfits S g -> Forall (fun j => j < length (SD S))%nat w -> elements (fun t => dm t = length (SD S)) g ->
  exists g', gflip g w true = Ok g' /\ gfits S g' /\ dsame (gden g') (dflip_dim (gden g) w) /\ gx g' = gx g /\ gy g' = gy g /\ gn g' = gn g /\ gd g' = gd g.
Proof. exact gflip_dim_ok. Qed.
(** g.expand(w, m) and g.expand(w, m, dim=True) *)
Theorem C87_expand : forall S g w m, spos S -> gfits S g -> els g <> [] -> (0 < m)%nat -> NoDup w -> Forall (fun k => k < m)%nat w -> length w = length (SN S) ->
  elements (fun t => nn t = length w) g ->
  exists g', gexpand g w m false = Ok g' /\ gfits (SH (SX S) (SY S) (expand_shape (SN S) w m) (SD S)) g' /\ dsame (gden g') (dexpand (gden g) w m) /\
    gx g' = gx g /\ gy g' = gy g /\ gn g' = m /\ gd g' = gd g.
Proof. exact gexpand_ok. Qed.
Theorem C87_expand_dim : forall S g w m, spos S -> gfits S g -> els g <> [] -> (0 < m)%nat -> NoDup w -> Forall (fun k => k < m)%nat w -> length w = length (SD S) ->
  elements (fun t => dm t = length w) g ->
  exists g', gexpand g w m true = Ok g' /\ gfits (SH (SX S) (SY S) (SN S) (expand_shape (SD S) w m)) g' /\ dsame (gden g') (dexpand_dim (gden g) w m) /\
    gx g' = gx g /\ gy g' = gy g /\ gn g' = gn g /\ gd g' = m.
Proof. exact gexpand_dim_ok. Qed.
(** g.toarray(): the array holds the dense meaning when every element has all the axes *)
Theorem C87_toarray : forall S g, spos S -> gfits S g -> els g <> [] ->
  elements (fun t => xd t = length (SX S) /\ yd t = length (SY S) /\ nn t = length (SN S) /\ dm t = length (SD S)) g ->
  exists a, gtoarray g = Ok a /\ shp a = xs (gden g) ++ ys (gden g) ++ ns (gden g) ++ ds (gden g) /\
    forall x y n d, In x (indices (xs (gden g))) -> In y (indices (ys (gden g))) -> In n (indices (ns (gden g))) -> In d (indices (ds (gden g))) ->
      el a (x ++ y ++ n ++ d) = at_ (gden g) x y n d.
Proof. exact gtoarray_ok. Qed.
(** refuted without "every element has all the axes": an element without dim axes makes
    expand(dim=True) raise although it broadcasts, and the array of a sum of two
    elements one of which has a dim axis is misaligned: entry (n,d) adds the value of
    the wrong feature *)
Theorem C87_missing_dim_refuted :
  (exists S g w m, spos S /\ gfits S g /\ Forall (fun k => k < m)%nat w /\ length w = length (SD S) /\ gexpand g w m true = Raise AssertionError) /\
  (exists S g a, spos S /\ gfits S g /\ gtoarray g = Ok a /\ shp a = ns (gden g) ++ ds (gden g) /\ el a [0; 1]%nat <> at_ (gden g) [] [] [0%nat] [1%nat]).
Proof.
  set (p := mkT (mkA [2]%nat entry) 0 0 1 0 [] []). set (q := mkT (mkA [2; 2]%nat entry) 0 0 1 1 [] []). set (S := SH [] [] [2%nat] [2%nat]).
  assert (Fp : fits S p). { constructor; [wft|tft|discriminate| | | | |]; cbn; [blw|blw|blw|blw|]. intros f [[]|[]]. }
  assert (Fq : fits S q). { constructor; [wft|tft|discriminate| | | | |]; cbn; [blw|blw|blw|blw|]. intros f [[]|[]]. }
  assert (PS : spos S) by (repeat split; cbn; repeat constructor).
  assert (G : gfits S (mkG 0 0 1 1 [IT p; IT q])) by (constructor; [exists p; auto|constructor; [exists q; auto|constructor]]).
  split.
  - exists S, (mkG 0 0 1 1 [IT p; IT q]), [0%nat], 1%nat. split; [exact PS|]. split; [exact G|]. split; [repeat constructor|]. split; reflexivity.
  - exists S, (mkG 0 0 1 1 [IT p; IT q]). eexists. split; [exact PS|]. split; [exact G|]. split; [reflexivity|]. split; [reflexivity|].
    cbn. unfold entry, delta. cbn -[INR]. lra.
Qed.
Print Assumptions C87_transpose. Print Assumptions C87_drop_dim. Print Assumptions C87_flip. Print Assumptions C87_flip_dim. Print Assumptions C87_expand. Print Assumptions C87_expand_dim. Print Assumptions C87_toarray. Print Assumptions C87_missing_dim_refuted.
(** a diagonal along feature 1 with a dim axis, plus a tensor stored in full *)
Example C87_nonvacuous :
  let S := SH [2%nat] [] [2%nat; 2%nat] [3%nat] in
  let g := mkG 1 0 2 1 [IT dgd; IT (mkT (mkA [2; 2; 2; 1]%nat entry) 1 0 2 1 [] [])] in
  spos S /\ gfits S g /\ elements transposable g /\
  elements (fun t => xd t = length (SX S) /\ yd t = length (SY S) /\ nn t = length (SN S) /\ dm t = length (SD S)) g /\
  (exists g', gflip g [0%nat] false = Ok g' /\ at_ (gden g') [1%nat] [] [0; 1]%nat [2%nat] = entry [0; 1; 1; 2]%nat + entry [1; 1; 1; 0]%nat) /\
  (exists g', gdrop g = Ok g' /\ at_ (gden g') [1%nat] [] [0; 1; 2]%nat [] = entry [0; 0; 1; 2]%nat + entry [1; 0; 1; 0]%nat) /\
  (exists g', gexpand g [2; 0]%nat 3 false = Ok g' /\ at_ (gden g') [1%nat] [] [1; 0; 0]%nat [2%nat] = entry [0; 0; 1; 2]%nat + entry [1; 0; 1; 0]%nat) /\
  (exists a, gtoarray g = Ok a /\ el a [1; 0; 1; 2]%nat = entry [0; 0; 1; 2]%nat + entry [1; 0; 1; 0]%nat).
Proof.
  intros S g. set (q := mkT (mkA [2; 2; 2; 1]%nat entry) 1 0 2 1 [] []) in *.
  assert (Fp : fits S dgd). { constructor; [exact dgd_wf|exact dgd_tf|discriminate| | | | |]; cbn; [blw|blw|blw|blw|]. intros f [[<-|[]]|[]]. reflexivity. }
  assert (Fq : fits S q). { constructor; [wft|tft|discriminate| | | | |]; cbn; [blw|blw|blw|blw|]. intros f [[]|[]]. }
  assert (PS : spos S) by (repeat split; cbn; repeat constructor).
  assert (EL : forall P : tensor -> Prop, P dgd -> P q -> elements P g) by (intros P H1 H2; constructor; [exists dgd; auto|constructor; [exists q; auto|constructor]]).
  assert (G : gfits S g) by (apply EL; assumption).
  assert (A : elements (fun t => xd t = length (SX S) /\ yd t = length (SY S) /\ nn t = length (SN S) /\ dm t = length (SD S)) g) by (apply EL; repeat split).
  split; [exact PS|]. split; [exact G|]. split; [apply EL; right; left; reflexivity|]. split; [exact A|].
  split; [|split; [|split]].
  - destruct (C87_flip S g [0%nat] PS G) as (g' & E & _ & (E1 & E2 & E3 & E4 & V) & _).
    { repeat constructor. }
    { apply EL; (split; [reflexivity|]); intros j [<-|[]]; cbn; split; intros HH; repeat destruct HH as [HH|HH]; try discriminate; contradiction. }
    exists g'. split; [exact E|]. rewrite V; [|rewrite ?E1, ?E2, ?E3, ?E4; cbn; auto 20..]. cbn. unfold delta. cbn. ring.
  - destruct (C87_drop_dim S g PS G) as (g' & E & _ & (E1 & E2 & E3 & E4 & V) & _).
    { apply EL; repeat split. }
    exists g'. split; [exact E|]. rewrite V; [|rewrite ?E1, ?E2, ?E3, ?E4; cbn; auto 20..]. cbn. unfold delta. cbn. ring.
  - destruct (C87_expand S g [2; 0]%nat 3%nat PS G) as (g' & E & _ & (E1 & E2 & E3 & E4 & V) & _).
    { discriminate. } { lia. } { fin. } { fin. } { reflexivity. } { apply EL; reflexivity. }
    exists g'. split; [exact E|]. rewrite V; [|rewrite ?E1, ?E2, ?E3, ?E4; cbn; auto 20..]. cbn. unfold delta. cbn. ring.
  - destruct (C87_toarray S g PS G) as (a & E & _ & V); [discriminate|exact A|].
    exists a. split; [exact E|]. change [1; 0; 1; 2]%nat with ([1] ++ [] ++ [0; 1] ++ [2])%nat. rewrite V by (cbn; auto 20). cbn. unfold delta. cbn. ring.
Qed.
