(** Inputs on which operations of tensor.py do not compute the dense operation,
    or raise.  They delimit the hypotheses of the theorems in Props_Tensor. *)
From Verif Require Import Prelude DenseModel NDArray NDProofs TensorModel TensorSpec TensorSpecOps.
From Coq Require Import Reals Lra.
Import List ListNotations.
Open Scope R_scope.

(** distinct entries *)
Definition code (i : idx) : R := INR (fold_left (fun a k => 3 * a + k)%nat i 1%nat).
Definition dims (r : res tensor) : res (list nat * list nat * list nat) := rmap (fun t => (xs (den t), ys (den t), ns (den t))) r.

(** transpose with x_dim = 2, y_dim = 1 (lines 617-623): the new y axes have
    sizes 3, 2 instead of 2, 3. *)
Definition t23 : tensor := mkT (mkA [2; 3; 5]%nat code) 2 1 0 0 [] [].
Example transpose_wrong : dims (ttranspose t23) = Ok ([5], [3; 2], [])%nat /\ ys (dtrans (den t23)) = [2; 3]%nat.
Proof. split; reflexivity. Qed.

(** sum over feature 1 only, of a tensor diagonal along feature 0 (lines 484-534):
    the diagonal is forgotten, the x axis (size 2) comes out with size 1. *)
Definition tm0 : tensor := mkT (mkA [1; 2; 2]%nat code) 1 0 2 0 [Some 0%nat] [].
Example partial_sum_wrong : xs (den tm0) = [2%nat] /\ dims (tsum tm0 (SVInt 1) false) = Ok ([1], [], [2])%nat /\ rmap xm (tsum tm0 (SVInt 1) false) = Ok [].
Proof. repeat split; reflexivity. Qed.
(** sum(False, False) turns dims into features *)
Example sum_none_drops t : tsum t SVFalse false = tdrop t.
Proof. reflexivity. Qed.

(** number + diagonal (lines 836-839, the number as a rank-0 Tensor on the left):
    off the diagonal the result is 0 instead of the number; with the operands
    exchanged it is right. *)
Example rank0_left_wrong : exists r, tbin (tnum 5) (PT tm0) ADD = Ok (PT r) /\
  at_ (den r) [0%nat] [] [1; 1]%nat [] = 0 /\ at_ (dadd (den (tnum 5)) (den tm0)) [0%nat] [] [1; 1]%nat [] = 5.
Proof.
  eexists. split; [reflexivity|]. split; [cbn -[code]; unfold delta; cbn -[code]; try ring|cbn -[code]; unfold delta; cbn -[code]; try ring].
Qed.

(** diagonal times full, when the feature has size 1 in the full operand (it would
    broadcast): the extracted diagonal has length 1 and other[0] is used for every x. *)
Definition tc : tensor := mkT (mkA [2; 1; 2]%nat code) 1 0 2 0 [] [].
Example extract_broadcast_wrong : exists r, tbin tm0 (PT tc) MUL = Ok (PT r) /\
  at_ (den r) [1%nat] [] [1; 1]%nat [] = code [0; 1; 1]%nat * code [0; 0; 1]%nat /\
  at_ (dmul (den tm0) (den tc)) [1%nat] [] [1; 1]%nat [] = code [0; 1; 1]%nat * code [1; 0; 1]%nat.
Proof. eexists. split; [reflexivity|]. split; cbn -[code]; unfold delta; cbn -[code]; try ring. Qed.

(** diagonal times full, with two axes after the mapped one (lines 46-53): the
    swap that puts feature 0 back exchanges features 1 and 2. *)
Definition tm3 : tensor := mkT (mkA [1; 2; 2; 2]%nat (fun _ => 1)) 1 0 3 0 [Some 0%nat] [].
Definition tf3 : tensor := mkT (mkA [2; 2; 2; 2]%nat code) 1 0 3 0 [] [].
Example extract_axes_wrong : exists r, tbin tm3 (PT tf3) MUL = Ok (PT r) /\
  at_ (den r) [1%nat] [] [1; 0; 1]%nat [] = code [1; 1; 1; 0]%nat /\
  at_ (dmul (den tm3) (den tf3)) [1%nat] [] [1; 0; 1]%nat [] = code [1; 1; 0; 1]%nat.
Proof. eexists. split; [reflexivity|]. split; cbn -[code]; unfold delta; cbn -[code]; try ring. Qed.
(** ... or the product raises *)
Example extract_axes_raises : tbin (mkT (mkA [1; 2; 3; 4]%nat code) 1 0 3 0 [Some 0%nat] []) (PT (mkT (mkA [2; 2; 3; 4]%nat code) 1 0 3 0 [] [])) MUL = Raise ValueError.
Proof. reflexivity. Qed.

(** y-diagonal times full when there is an x axis: the extracted axis is put back
    at the position of the x axis, so the result has a mapped y axis with 2 stored
    values (not a well-formed Tensor) and wrong entries. *)
Definition ymh : tensor := mkT (mkA [2; 1; 2]%nat (fun _ => 1)) 1 1 1 0 [] [Some 0%nat].
Definition yfull : tensor := mkT (mkA [2; 2; 2]%nat code) 1 1 1 0 [] [].
Example extract_y_wrong : exists r, tbin ymh (PT yfull) MUL = Ok (PT r) /\ sY r = [2%nat] /\ ym r = [Some 0%nat] /\
  at_ (den r) [1%nat] [1%nat] [1%nat] [] = code [0; 1; 1]%nat /\ at_ (dmul (den ymh) (den yfull)) [1%nat] [1%nat] [1%nat] [] = code [1; 1; 1]%nat.
Proof. eexists. split; [reflexivity|]. split; [reflexivity|]. split; [reflexivity|]. split; cbn -[code]; unfold delta; cbn -[code]; try ring. Qed.
Example codes_differ : code [0; 0; 1]%nat <> code [1; 0; 1]%nat /\ code [1; 1; 1; 0]%nat <> code [1; 1; 0; 1]%nat /\ code [0; 1; 1]%nat <> code [1; 1; 1]%nat.
Proof. repeat split; apply not_INR; cbn; lia. Qed.

(** a formal sum contracted with the number 0 stored as a Tensor: each contraction
    gives the int 0, and the second one cannot be added to it (lines 336-349, 382-386). *)
Definition o1 : tensor := mkT (mkA [1; 2]%nat code) 1 0 1 0 [Some 0%nat] [].
Definition o2 : tensor := mkT (mkA [2; 2]%nat code) 1 0 1 0 [] [].
Example dot_right_zero_raises : gdot_right (mkG 1 0 1 0 [IT o1; IT o2]) (PT (tnum 0)) = Raise AttributeError.
Proof.
  unfold gdot_right, gdot_right_t. cbn [els ofold on_item rmap]. unfold tdot_right, is_zero0. cbn [tnum tv np_scalar shp el].
  destruct (Req_EM_T 0 0) as [_|N]; [|now elim N]. reflexivity.
Qed.
(** elements with different numbers of y axes are aligned on the right by toarray
    (lines 229-231): the sum of a y-less and a y-full tensor is misplaced or fails *)
Definition nx : tensor := mkT (mkA [2; 3]%nat code) 1 0 1 0 [] [].
Definition nxy : tensor := mkT (mkA [2; 4; 3]%nat code) 1 1 1 0 [] [].
Example gtoarray_raises : gtoarray (mkG 1 1 1 0 [IT nx; IT nxy]) = Raise ValueError /\
  ys (gden (mkG 1 1 1 0 [IT nx; IT nxy])) = [4%nat].
Proof. split; reflexivity. Qed.
