(** A concrete assembly over Z: two parameters (one with a fixed entry), one
    linear constraint, one quadratic regularization on both parameters. *)
From Verif Require Import Prelude ParamModel AssembleModel AssembleSpec AssembleProofs AssembleHess AssembleNewton.
Local Open Scope Z_scope.

Definition exA_ps : list (param Z) :=
  [ mkParam [3%nat] [1; 2; 3] [false; true; false]; mkParam [2%nat] [4; 5] [false; false] ].

(** sum of the entries of p0 plus twice the entries of p1, minus 7. *)
Definition exA_coef : list (list Z) := [[1; 1; 1]; [2; 2]].
Definition exA_lin : sfunc Z :=
  Build_sfunc Z
   (fun args => Ok (-7 + sumA 0 Z.add (fun p => dotp 0 Z.add Z.mul (nth p exA_coef []) (p_vals (nth p args noparam))) (seq 0 2)))
   (fun args => Ok exA_coef)
   (fun args => Ok [[[0]]; [[0]; [0]]]).
Lemma exA_lin_linear : linear_fun 0 Z.add Z.mul exA_lin (-7) exA_coef.
Proof. intros args H1 H2. split; reflexivity. Qed.

(** p0[0]*p1[1] + p1[0]^2: gradient and Hessian written out. *)
Definition exA_reg : sfunc Z :=
  Build_sfunc Z
   (fun args => let p0 := p_vals (nth 0%nat args noparam) in let p1 := p_vals (nth 1%nat args noparam) in
                Ok (nth 0%nat p0 0 * nth 1%nat p1 0 + nth 0%nat p1 0 * nth 0%nat p1 0))
   (fun args => let p0 := p_vals (nth 0%nat args noparam) in let p1 := p_vals (nth 1%nat args noparam) in
                Ok [[nth 1%nat p1 0; 0; 0]; [2 * nth 0%nat p1 0; nth 0%nat p0 0]])
   (fun args => Ok [[[0]]; [[0; 0; 0; 1; 0; 0]; [2; 0; 0; 0]]]).

Definition exA_cs : list (list nat * sfunc Z) := [([0; 1]%nat, exA_lin)].
Definition exA_rs : list (list nat * sfunc Z) := [([0; 1]%nat, exA_reg)].
Definition exA_g : list (list Z) := [[10; 20; 30]; [40; 50]].
Definition exA_h : list (list (list Z)) :=
  [ [[1; 2; 3; 2; 4; 5; 3; 5; 6]]; [[11; 12; 13; 14; 15; 16]; [7; 8; 8; 9]] ].

Lemma exA_cs_registered : Forall (registered exA_ps) exA_cs.
Proof.
  repeat constructor; cbn; try lia; try discriminate.
  - eexists; reflexivity.
  - eexists; split; [reflexivity|]. split; [reflexivity|]. intros [|[|p]] Hp; cbn in *; [left|left|]; try reflexivity; lia.
  - eexists; split; [reflexivity|]. split; [reflexivity|]. intros [|[|p]] Hp; cbn in *; try lia.
    + split; auto. intros [|q] Hq; [right; reflexivity|lia].
    + split; auto. intros [|[|q]] Hq; [right; reflexivity|right; reflexivity|lia].
Qed.
Lemma exA_rs_registered : Forall (registered exA_ps) exA_rs.
Proof.
  repeat constructor; cbn; try lia; try discriminate.
  - eexists; reflexivity.
  - eexists; split; [reflexivity|]. split; [reflexivity|]. intros [|[|p]] Hp; cbn in *; [left|left|]; try reflexivity; lia.
  - eexists; split; [reflexivity|]. split; [reflexivity|]. intros [|[|p]] Hp; cbn in *; try lia.
    + split; auto. intros [|q] Hq; [right; reflexivity|lia].
    + split; auto. intros [|[|q]] Hq; [left; reflexivity|left; reflexivity|lia].
Qed.
Lemma exA_g_shaped : grad_shaped exA_ps exA_g.
Proof. split; [reflexivity|]. intros [|[|i]] H; cbn in *; try reflexivity; lia. Qed.
Lemma exA_h_shaped : hess_shaped exA_ps exA_h.
Proof.
  split; [reflexivity|]. intros [|[|i]] H; cbn in *; try lia; split; auto.
  - intros [|j] Hj; [reflexivity|lia].
  - intros [|[|j]] Hj; [reflexivity|reflexivity|lia].
Qed.
Lemma exA_wf : Forall param_wf exA_ps.
Proof. repeat constructor. Qed.
Example exA_grad : flat_grad Z 0 Z.add Z.sub Z.mul exA_ps exA_g exA_cs exA_rs =
  Ok [10 - 5; 30; 40 - 8; 50 - 1; -7 + 6 + 18].
Proof. reflexivity. Qed.
Example exA_hess : flat_hess Z 0 Z.add Z.sub Z.mul exA_ps exA_h exA_cs exA_rs =
  Ok [ [1; 3; 11; 13; 1]; [3; 6; 13; 16; 1]; [11; 13; 5; 8; 2]; [13; 16; 8; 9; 2]; [1; 1; 2; 2; 0] ].
Proof. reflexivity. Qed.
