(** Vocabulary of the statements about [fit]. *)
From Coq Require Import String.
From Verif Require Import Prelude ParamModel ParamProofs ParamSpec FitModel.

Section Spec.
Context {F M Y D H T : Type}.
Variable E : estimator F M Y D H T.

(** 1, 1/2, 1/4, 1/8, 1/16 as Python computes them. *)
Fixpoint halvings (n : nat) (m : F) : list F :=
  match n with 0 => [] | S n' => m :: halvings n' (f_mul E m (f_half E)) end.
Definition multipliers : list F := halvings 5 (f_one E).

(** The trace without the printed lines. *)
Definition quiet (tr : list (event F)) : list (event F) :=
  filter (fun e => match e with EvPrint => false | _ => true end) tr.
Definition count_steps (tr : list (event F)) : nat :=
  length (filter (fun e => match e with EvStep _ => true | _ => false end) tr).
Definition count_trials (tr : list (event F)) : nat :=
  length (filter (fun e => match e with EvTrial _ _ => true | _ => false end) tr).
(** multipliers of the trial points, in order *)
Definition trial_mults (tr : list (event F)) : list F :=
  flat_map (fun e => match e with EvTrial m _ => [m] | _ => [] end) tr.

(** What a parameter list keeps fixed. *)
Definition same_frame (ps qs : list (param F)) : Prop :=
  length qs = length ps /\ map p_shape qs = map p_shape ps /\ map p_mask qs = map p_mask ps /\
  map (entries_with true) qs = map (entries_with true) ps.

(** No user or library code called by [fit] raises [e]. *)
Definition oracles_never_raise (e : exn) : Prop :=
  (forall a b, f_div E a b <> Raise e) /\ (forall p, model_eval E p <> Raise e) /\
  (forall p, model_call E p <> Raise e) /\ (forall p, model_grad E p <> Raise e) /\
  (forall d p y, objective E d p y <> Raise e) /\
  (forall d p y g, flat_grad E d p y g <> Raise e) /\
  (forall d p y g h, flat_hess E d p y g h <> Raise e) /\
  (forall m v, np_solve E m v <> Raise e) /\ (forall m, sp_pinvh E m <> Raise e) /\
  (forall m v, m_dot E m v <> Raise e) /\ (forall m u v, broyden_update E m u v <> Raise e).
End Spec.
