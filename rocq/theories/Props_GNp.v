(** C89 (maxlike/tensor/tensor.py 356-438): NumPy arrays and formal sums.  An array [a]
    stands for values at the features ([vden (PArr a)]); [arr_for S a]: it has at least
    one axis, positive sizes, and broadcasts to the features of the common shape S. *)
From Verif Require Import Prelude DenseModel DenseProofs NDArray NDProofs TensorModel TensorSpec TensorSpecOps TensorLemmas TensorArith TensorGeneric TensorGOps TensorGMul TensorGNp FTModel Props_Tensor.
From Coq Require Import Reals Lra.
Import List ListNotations.
Open Scope R_scope.

(** g * a, a * g, g / a *)
Theorem C89_times_array : forall S g a, spos S -> gfits S g -> els g <> [] -> arr_for S a ->
  (exists g', py OMul (PG g) (PArr a) = Ok (PG g') /\ py OMul (PArr a) (PG g) = Ok (PG g') /\ gfits S g' /\
     dsame (gden g') (dbin Rmult (gden g) (vden (PArr a))) /\ gx g' = gx g /\ gy g' = gy g /\ gn g' = gn g /\ gd g' = gd g) /\
  (exists g', py ODiv (PG g) (PArr a) = Ok (PG g') /\ gfits S g' /\
     dsame (gden g') (dbin Rdiv (gden g) (vden (PArr a))) /\ gx g' = gx g /\ gy g' = gy g /\ gn g' = gn g /\ gd g' = gd g).
Proof. exact garr_times. Qed.
(** g + a, a + g when some element of g has no diagonals *)
Theorem C89_plus_array : forall S g a, spos S -> gfits S g -> (exists t, In (IT t) (els g) /\ xm t = [] /\ ym t = []) -> arr_for S a ->
  exists g', py OAdd (PG g) (PArr a) = Ok (PG g') /\ py OAdd (PArr a) (PG g) = Ok (PG g') /\ gfits S g' /\
    dsame (gden g') (dbin Rplus (gden g) (vden (PArr a))) /\ gx g' = gx g /\ gy g' = gy g /\ gn g' = gn g /\ gd g' = gd g.
Proof. exact garr_plus. Qed.
(** g - a, a - g *)
Theorem C89_minus_array : forall S g a, spos S -> gfits S g -> (exists t, In (IT t) (els g) /\ xm t = [] /\ ym t = []) -> arr_for S a ->
  (exists g', py OSub (PG g) (PArr a) = Ok (PG g') /\ gfits S g' /\
    dsame (gden g') (dbin Rminus (gden g) (vden (PArr a))) /\ gx g' = gx g /\ gy g' = gy g /\ gn g' = gn g /\ gd g' = gd g) /\
  (exists g', py OSub (PArr a) (PG g) = Ok (PG g') /\ gfits S g' /\
    dsame (gden g') (dbin Rminus (vden (PArr a)) (gden g)) /\ gx g' = gx g /\ gy g' = gy g /\ gn g' = gn g /\ gd g' = gd g).
Proof. exact garr_minus. Qed.
(** the condition is needed: when every element has a diagonal the sum is accepted but
    the bare array becomes an element, and drop_dim fails afterwards, also after a
    negation *)
Theorem C89_unabsorbed_refuted : forall S g a, spos S -> gfits S g -> (forall t, In (IT t) (els g) -> ~ (xm t = [] /\ ym t = [])) -> arr_for S a ->
  exists g', py OAdd (PG g) (PArr a) = Ok (PG g') /\ els g' = els g ++ [IArr a] /\ gdrop g' = Raise AttributeError /\
    exists gm, gneg g' = Ok gm /\ gdrop gm = Raise AttributeError.
Proof. exact garr_unabsorbed. Qed.
Print Assumptions C89_times_array. Print Assumptions C89_plus_array. Print Assumptions C89_minus_array. Print Assumptions C89_unabsorbed_refuted.
(** a diagonal and a tensor stored in full; two diagonals for the refutation *)
Definition arr22 : nda := mkA [2; 2]%nat entry.
Example C89_nonvacuous :
  let S := SH [2%nat] [] [2%nat; 2%nat] [] in
  let g := mkG 1 0 2 0 [IT dg0; IT fl0] in let g2 := mkG 1 0 2 0 [IT dg0; IT dg1] in
  spos S /\ gfits S g /\ gfits S g2 /\ arr_for S arr22 /\
  (exists r, py OMul (PArr arr22) (PG g) = Ok (PG r) /\ at_ (gden r) [1%nat] [] [1; 0]%nat [] = (entry [0; 1; 0]%nat + entry [1; 1; 0]%nat) * entry [1; 0]%nat) /\
  (exists r, py OSub (PArr arr22) (PG g) = Ok (PG r) /\ at_ (gden r) [1%nat] [] [0; 1]%nat [] = entry [0; 1]%nat - entry [1; 0; 1]%nat) /\
  (exists r, py OAdd (PG g) (PArr arr22) = Ok (PG r) /\ at_ (gden r) [1%nat] [] [0; 1]%nat [] = entry [1; 0; 1]%nat + entry [0; 1]%nat) /\
  (exists r, py OAdd (PG g2) (PArr arr22) = Ok (PG r) /\ gdrop r = Raise AttributeError).
Proof.
  intros S g g2.
  assert (F0 : fits S dg0). { constructor; [exact dg0_wf|tft|discriminate| | | | |]; cbn; [blw|blw|blw|blw|]. intros f [[<-|[]]|[]]. reflexivity. }
  assert (F1 : fits S dg1). { constructor; [exact dg1_wf|tft|discriminate| | | | |]; cbn; [blw|blw|blw|blw|]. intros f [[<-|[]]|[]]. reflexivity. }
  assert (Ff : fits S fl0). { constructor; [exact fl0_wf|tft|discriminate| | | | |]; cbn; [blw|blw|blw|blw|]. intros f [[]|[]]. }
  assert (PS : spos S) by (repeat split; cbn; repeat constructor).
  assert (G : gfits S g) by (constructor; [exists dg0; auto|constructor; [exists fl0; auto|constructor]]).
  assert (G2 : gfits S g2) by (constructor; [exists dg0; auto|constructor; [exists dg1; auto|constructor]]).
  assert (A : arr_for S arr22). { split; [discriminate|]. split; [repeat constructor|]. cbn. blw. }
  assert (U : exists t, In (IT t) (els g) /\ xm t = [] /\ ym t = []) by (exists fl0; split; [right; left; reflexivity|split; reflexivity]).
  split; [exact PS|]. split; [exact G|]. split; [exact G2|]. split; [exact A|].
  split; [|split; [|split]].
  - destruct (proj1 (C89_times_array S g arr22 PS G ltac:(discriminate) A)) as (r & _ & E & _ & (E1 & E2 & E3 & E4 & V) & _). exists r. split; [exact E|].
    rewrite V; [|rewrite ?E1, ?E2, ?E3, ?E4; cbn; auto 20..]. cbn -[entry]. unfold delta. cbn -[entry]. ring.
  - destruct (proj2 (C89_minus_array S g arr22 PS G U A)) as (r & E & _ & (E1 & E2 & E3 & E4 & V) & _). exists r. split; [exact E|].
    rewrite V; [|rewrite ?E1, ?E2, ?E3, ?E4; cbn; auto 20..]. cbn -[entry]. unfold delta. cbn -[entry]. ring.
  - destruct (C89_plus_array S g arr22 PS G U A) as (r & E & _ & _ & (E1 & E2 & E3 & E4 & V) & _). exists r. split; [exact E|].
    rewrite V; [|rewrite ?E1, ?E2, ?E3, ?E4; cbn; auto 20..]. cbn -[entry]. unfold delta. cbn -[entry]. ring.
  - destruct (C89_unabsorbed_refuted S g2 arr22 PS G2) as (r & E & _ & D & _); [|exact A|exists r; auto].
    intros t [E|[E|[]]]; injection E as <-; intros [H _]; discriminate.
Qed.
