(** C88 (maxlike/tensor/tensor.py 185-207, 356-424, 778-787): products, quotients and
    scalars of a formal sum (GenericTensor).  [py] is the Python operator on values
    ([PG] a formal sum, [PT] a Tensor, [PNum] a number); [gden g] is the dense array the
    formal sum stands for and [dbin op] the broadcast entry-by-entry operation. *)
From Verif Require Import Prelude DenseModel DenseProofs NDArray NDProofs TensorModel TensorSpec TensorSpecOps TensorLemmas TensorArith TensorGeneric TensorGOps TensorGMul FTModel Props_Tensor.
From Coq Require Import Reals Lra.
Import List ListNotations.
Open Scope R_scope.

(** g * o and g / o for a Tensor o: for every element, per group the diagonals agree
    or one of the two has no axes there (and a divisor has no diagonals) *)
Theorem C88_times_tensor : forall S g o, spos S -> gfits S g -> els g <> [] -> fits S o ->
  elements (fun t => same_or_absent (xm t) (xm o) (sX t) (sX o) /\ same_or_absent (ym t) (ym o) (sY t) (sY o)) g ->
  exists g', py OMul (PG g) (PT o) = Ok (PG g') /\ gfits S g' /\ dsame (gden g') (dbin Rmult (gden g) (den o)) /\
    gx g' = Nat.max (gx g) (xd o) /\ gy g' = Nat.max (gy g) (yd o) /\ gn g' = Nat.max (gn g) (nn o) /\ gd g' = Nat.max (gd g) (dm o) /\ length (els g') = length (els g).
Proof. exact gtimes. Qed.
Theorem C88_over_tensor : forall S g o, spos S -> gfits S g -> els g <> [] -> fits S o -> xm o = [] -> ym o = [] ->
  elements (fun t => same_or_absent (xm t) (xm o) (sX t) (sX o) /\ same_or_absent (ym t) (ym o) (sY t) (sY o)) g ->
  exists g', py ODiv (PG g) (PT o) = Ok (PG g') /\ gfits S g' /\ dsame (gden g') (dbin Rdiv (gden g) (den o)) /\
    gx g' = Nat.max (gx g) (xd o) /\ gy g' = Nat.max (gy g) (yd o) /\ gn g' = Nat.max (gn g) (nn o) /\ gd g' = Nat.max (gd g) (dm o) /\ length (els g') = length (els g).
Proof. exact gover. Qed.
(** o * g *)
Theorem C88_tensor_times : forall S g o, spos S -> gfits S g -> els g <> [] -> fits S o ->
  elements (fun t => same_or_absent (xm t) (xm o) (sX t) (sX o) /\ same_or_absent (ym t) (ym o) (sY t) (sY o)) g ->
  exists g', py OMul (PT o) (PG g) = Ok (PG g') /\ gfits S g' /\ dsame (gden g') (dbin Rmult (den o) (gden g)).
Proof. exact timesg. Qed.
(** g * h for two formal sums: every pair of elements is compatible as above *)
Theorem C88_times_sum : forall S g h, spos S -> gfits S g -> gfits S h -> els g <> [] -> els h <> [] ->
  elements (fun o => elements (fun t => same_or_absent (xm t) (xm o) (sX t) (sX o) /\ same_or_absent (ym t) (ym o) (sY t) (sY o)) g) h ->
  exists r, py OMul (PG g) (PG h) = Ok (PG r) /\ gfits S r /\ dsame (gden r) (dbin Rmult (gden g) (gden h)).
Proof. exact gtimesg. Qed.
(** g + c, c + g, g - c and c - g for a number c *)
Theorem C88_plus_number : forall S g c, spos S -> gfits S g -> els g <> [] ->
  exists g', py OAdd (PG g) (PNum c) = Ok (PG g') /\ py OAdd (PNum c) (PG g) = Ok (PG g') /\ gfits S g' /\ dsame (gden g') (dmap (fun v => v + c) (gden g)) /\
    gx g' = gx g /\ gy g' = gy g /\ gn g' = gn g /\ gd g' = gd g.
Proof. exact gplus_num. Qed.
Theorem C88_minus_number : forall S g c, spos S -> gfits S g -> els g <> [] ->
  (exists g', py OSub (PG g) (PNum c) = Ok (PG g') /\ gfits S g' /\ dsame (gden g') (dmap (fun v => v - c) (gden g)) /\
    gx g' = gx g /\ gy g' = gy g /\ gn g' = gn g /\ gd g' = gd g) /\
  (exists g', py OSub (PNum c) (PG g) = Ok (PG g') /\ gfits S g' /\ dsame (gden g') (dmap (fun v => c - v) (gden g)) /\
    gx g' = gx g /\ gy g' = gy g /\ gn g' = gn g /\ gd g' = gd g).
Proof. exact gminus_num. Qed.
(** g * c, c * g and g / c for a number c other than 0 *)
Theorem C88_times_number : forall S g c, spos S -> gfits S g -> c <> 0 ->
  (exists g', py OMul (PG g) (PNum c) = Ok (PG g') /\ py OMul (PNum c) (PG g) = Ok (PG g') /\ gfits S g' /\ dsame (gden g') (dmap (fun v => v * c) (gden g)) /\
    gx g' = gx g /\ gy g' = gy g /\ gn g' = gn g /\ gd g' = gd g) /\
  (exists g', py ODiv (PG g) (PNum c) = Ok (PG g') /\ gfits S g' /\ dsame (gden g') (dmap (fun v => v / c) (gden g)) /\
    gx g' = gx g /\ gy g' = gy g /\ gn g' = gn g /\ gd g' = gd g).
Proof. exact gtimes_num. Qed.
(** multiplying by 0 gives a formal sum that stands for the number 0 (it loses its shape);
    dividing by 0 raises ZeroDivisionError; a formal sum cannot be a divisor *)
Theorem C88_zero : forall S g, gfits S g -> els g <> [] ->
  (exists g', py OMul (PG g) (PNum 0) = Ok (PG g') /\ dsame (gden g') dzero) /\
  py ODiv (PG g) (PNum 0) = Raise ZeroDivisionError.
Proof. exact gzero. Qed.
Theorem C88_divisor_raises : forall g,
  (forall c, py ODiv (PNum c) (PG g) = Raise InvalidOperation) /\ (forall o, py ODiv (PT o) (PG g) = Raise InvalidOperation) /\
  (forall h, py ODiv (PG h) (PG g) = Raise InvalidOperation).
Proof. exact gdivisor. Qed.
Print Assumptions C88_times_tensor. Print Assumptions C88_over_tensor. Print Assumptions C88_tensor_times. Print Assumptions C88_times_sum. Print Assumptions C88_plus_number. Print Assumptions C88_minus_number. Print Assumptions C88_times_number. Print Assumptions C88_zero. Print Assumptions C88_divisor_raises.
(** two diagonals along different features, times a tensor with values at every
    feature, or times a formal sum of two such tensors *)
Definition row0 : tensor := mkT (mkA [2; 1]%nat entry) 0 0 2 0 [] [].
Example C88_nonvacuous :
  let S := SH [2%nat] [] [2%nat; 2%nat] [] in
  let g := mkG 1 0 2 0 [IT dg0; IT dg1] in
  let h := mkG 0 0 2 0 [IT val0; IT row0] in
  spos S /\ gfits S g /\ gfits S h /\
  elements (fun o => elements (fun t => same_or_absent (xm t) (xm o) (sX t) (sX o) /\ same_or_absent (ym t) (ym o) (sY t) (sY o)) g) h /\
  (exists r, py OMul (PG g) (PG h) = Ok (PG r) /\ at_ (gden r) [1%nat] [] [1; 1]%nat [] = (entry [0; 1; 1]%nat + entry [0; 1; 1]%nat) * (entry [1; 1]%nat + entry [1; 0]%nat) /\
     at_ (gden r) [1%nat] [] [0; 1]%nat [] = entry [0; 0; 1]%nat * (entry [0; 1]%nat + entry [0; 0]%nat)) /\
  (exists r, py ODiv (PG g) (PT val0) = Ok (PG r) /\ at_ (gden r) [1%nat] [] [0; 1]%nat [] = entry [0; 0; 1]%nat / entry [0; 1]%nat) /\
  (exists r, py OSub (PNum 7) (PG g) = Ok (PG r) /\ at_ (gden r) [1%nat] [] [0; 1]%nat [] = 7 - entry [0; 0; 1]%nat) /\
  (exists r, py OMul (PG g) (PNum 7) = Ok (PG r) /\ at_ (gden r) [1%nat] [] [0; 1]%nat [] = entry [0; 0; 1]%nat * 7).
Proof.
  intros S g h.
  assert (F0 : fits S dg0). { constructor; [exact dg0_wf|tft|discriminate| | | | |]; cbn; [blw|blw|blw|blw|]. intros f [[<-|[]]|[]]. reflexivity. }
  assert (F1 : fits S dg1). { constructor; [exact dg1_wf|tft|discriminate| | | | |]; cbn; [blw|blw|blw|blw|]. intros f [[<-|[]]|[]]. reflexivity. }
  assert (Fv : fits S val0). { constructor; [wft|tft|discriminate| | | | |]; cbn; [blw|blw|blw|blw|]. intros f [[]|[]]. }
  assert (Fr : fits S row0). { constructor; [wft|tft|discriminate| | | | |]; cbn; [blw|blw|blw|blw|]. intros f [[]|[]]. }
  assert (PS : spos S) by (repeat split; cbn; repeat constructor).
  assert (EG : forall P : tensor -> Prop, P dg0 -> P dg1 -> elements P g) by (intros P H1 H2; constructor; [exists dg0; auto|constructor; [exists dg1; auto|constructor]]).
  assert (EH : forall P : tensor -> Prop, P val0 -> P row0 -> elements P h) by (intros P H1 H2; constructor; [exists val0; auto|constructor; [exists row0; auto|constructor]]).
  assert (G : gfits S g) by (apply EG; assumption). assert (H : gfits S h) by (apply EH; assumption).
  assert (M : forall o, xm o = [] -> ym o = [] -> sX o = [] -> sY o = [] -> elements (fun t => same_or_absent (xm t) (xm o) (sX t) (sX o) /\ same_or_absent (ym t) (ym o) (sY t) (sY o)) g).
  { intros o M1 M2 M3 M4. apply EG; (split; right; left; auto). }
  assert (MM : elements (fun o => elements (fun t => same_or_absent (xm t) (xm o) (sX t) (sX o) /\ same_or_absent (ym t) (ym o) (sY t) (sY o)) g) h) by (apply EH; apply M; reflexivity).
  split; [exact PS|]. split; [exact G|]. split; [exact H|]. split; [exact MM|].
  split; [|split; [|split]].
  - destruct (C88_times_sum S g h PS G H ltac:(discriminate) ltac:(discriminate) MM) as (r & E & _ & (E1 & E2 & E3 & E4 & V)). exists r. split; [exact E|].
    split; (rewrite V; [|rewrite ?E1, ?E2, ?E3, ?E4; cbn; auto 20..]; cbn; unfold delta; cbn; ring).
  - destruct (C88_over_tensor S g val0 PS G ltac:(discriminate) Fv eq_refl eq_refl (M val0 eq_refl eq_refl eq_refl eq_refl)) as (r & E & _ & (E1 & E2 & E3 & E4 & V) & _). exists r. split; [exact E|].
    rewrite V; [|rewrite ?E1, ?E2, ?E3, ?E4; cbn; auto 20..]. cbn -[entry]. unfold delta. cbn -[entry]. unfold Rdiv. rewrite !Rmult_1_r. ring.
  - destruct (proj2 (C88_minus_number S g 7 PS G ltac:(discriminate))) as (r & E & _ & (E1 & E2 & E3 & E4 & V) & _). exists r. split; [exact E|].
    rewrite V; [|rewrite ?E1, ?E2, ?E3, ?E4; cbn; auto 20..]. cbn. unfold delta. cbn. ring.
  - destruct (proj1 (C88_times_number S g 7 PS G ltac:(lra))) as (r & E & _ & _ & (E1 & E2 & E3 & E4 & V) & _). exists r. split; [exact E|].
    rewrite V; [|rewrite ?E1, ?E2, ?E3, ?E4; cbn; auto 20..]. cbn. unfold delta. cbn. ring.
Qed.
