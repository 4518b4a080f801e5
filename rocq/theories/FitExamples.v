(** A small concrete estimator over the rationals, used to show that the
    hypotheses of the theorems of Props_Fit.v are met, and as witness of the
    findings.  Objective: g(x) = -(x-3)^4 - 1 (one free scalar, one fixed). *)
From Coq Require Import String QArith Qabs.
From Verif Require Import Prelude ParamModel ParamProofs ParamSpec FitModel FitSpec FitProofs FitPropProofs.
Local Open Scope Q_scope.

Definition x_of (ps : list (param Q)) : Q :=
  match ps with p :: _ => match p_vals p with x :: _ => x | [] => 0 end | [] => 0 end.

Definition toy (pinv_fails : bool) : estimator Q Q Q unit unit unit := {|
  f_sub := fun a b => Qred (a - b); f_add := fun a b => Qred (a + b); f_mul := fun a b => Qred (a * b);
  f_neg := Qopp; f_abs := Qabs; f_one := 1; f_half := 1 # 2;
  f_div := fun a b => if Qeq_bool b 0 then Raise ZeroDivisionError else Ok (Qred (a / b));
  f_ge := fun a b => Qle_bool b a; f_lt := fun a b => negb (Qle_bool b a);
  model_eval := fun ps => Ok (x_of ps, tt, tt);
  model_call := fun ps => Ok (x_of ps); model_grad := fun _ => Ok tt;
  objective := fun _ ps y => Ok (Qred (- ((y - 3) * (y - 3) * (y - 3) * (y - 3)) - 1));
  flat_grad := fun _ ps y _ => Ok [Qred (-4 * ((y - 3) * (y - 3) * (y - 3)))];
  flat_hess := fun _ ps y _ _ => Ok (Qred (-12 * ((y - 3) * (y - 3))));
  np_solve := fun m b => if Qeq_bool m 0 then Raise LinAlgError else Ok [Qred (hd 0 b / m)];
  sp_pinvh := fun m => if pinv_fails && negb (Qle_bool m (-10)) then Raise LinAlgError
                       else Ok (if Qeq_bool m 0 then 0 else Qred (/ m));
  m_nrows := fun _ => 1%nat;
  m_dot := fun m v => Ok (map (fun x => Qred (m * x)) v);
  broyden_update := fun m _ _ => Ok m;
  n_constraints := 0%nat |}.

Definition toy_state : state Q Q unit :=
  mkState [mkParam [] [0] [false]; mkParam [2%nat] [7; 8] [true; true]] None false (fun _ => None).

Definition out_of (r : list (event Q) * state Q Q unit * res bool) : res bool := snd r.
Definition st_of (r : list (event Q) * state Q Q unit * res bool) : state Q Q unit := snd (fst r).

(** one Newton step accepted: x = 0 -> 1, stored curvature -108 = g''(0) and not g''(1) = -48 *)
Lemma toy_newton :
  let r := fit (toy false) 10 20 0 "Newton" [] toy_state in
  out_of r = Ok true /\ map p_vals (s_params (st_of r)) = [[1]; [7; 8]] /\ s_hess (st_of r) = Some (-108 # 1)
  /\ flat_hess (toy false) (fun _ => None) (s_params (st_of r)) (x_of (s_params (st_of r))) tt tt = Ok (-48 # 1)
  /\ s_conv (st_of r) = false.
Proof. vm_compute. repeat split. Qed.

(** a Newton run which stops because of max_steps *)
Lemma toy_newton_fail :
  let r := fit (toy false) (1 # 1000000) 3 0 "newton" [] toy_state in
  out_of r = Raise ConvergenceError /\ count_steps (fst (fst r)) = 3%nat.
Proof. vm_compute. repeat split. Qed.

Lemma toy_broyden :
  let r := fit (toy false) 10 20 0 "BROYDEN" [] toy_state in
  out_of r = Ok true /\ s_conv (st_of r) = true /\ map p_vals (s_params (st_of r)) = [[1]; [7; 8]].
Proof. vm_compute. repeat split. Qed.

(** Broyden with a failing last pinvh: raises, yet the parameters have moved. *)
Lemma toy_broyden_partial_update :
  let r := fit (toy true) 10 20 0 "broyden" [] toy_state in
  out_of r = Raise LinAlgError /\ map p_vals (s_params (st_of r)) = [[1]; [7; 8]].
Proof. vm_compute. repeat split. Qed.

Lemma toy_wf : Forall param_wf (s_params toy_state).
Proof. repeat constructor. Qed.
Lemma toy_consistent : eval_consistent (toy false).
Proof. intros ps y der hs X. cbn in *. congruence. Qed.
Lemma toy_transitive : ge_transitive (toy false).
Proof.
  intros a b c. cbn. rewrite !Qle_bool_iff. intros A B. eapply Qle_trans; eauto.
Qed.
Lemma toy_solver : forall a b x, np_solve (toy false) a b = Ok x ->
  List.length x = (n_free (s_params toy_state) + n_constraints (toy false))%nat.
Proof. intros a b x. cbn. destruct (Qeq_bool a 0); [discriminate|]. intros [= <-]. reflexivity. Qed.
Lemma toy_no_conv_raise : oracles_never_raise (toy false) ConvergenceError.
Proof.
  repeat split; cbn; intros; try discriminate.
  - destruct (Qeq_bool b 0); discriminate.
  - destruct (Qeq_bool m 0); discriminate.
Qed.
