(** Properties C38, C39 and C64 (tennis functions). *)
From Coq Require Import Reals List Lra Lia.
From Coquelicot Require Import Coquelicot.
From Verif Require Import Prelude AnalyticSpec TennisModel TennisSpec TennisProofs.
Import List ListNotations.
Local Open Scope R_scope.

(** C38: the probabilities of winning with each score are non-negative, and
    winning and losing (= the opponent winning) add up to one. *)
Theorem C38_game : forall p,
  Rsum (fun x => x) (game p) + Rsum (fun x => x) (game (1 - p)) = 1 /\
  (0 <= p <= 1 -> Forall (Rle 0) (game p)).
Proof. intros p; split; [apply game_total|apply game_nonneg]. Qed.
Print Assumptions C38_game.
Theorem C38_tiebreak : forall p,
  Rsum (fun x => x) (tiebreak p) + Rsum (fun x => x) (tiebreak (1 - p)) = 1 /\
  (0 <= p <= 1 -> Forall (Rle 0) (tiebreak p)).
Proof. intros p; split; [apply tiebreak_total|apply tiebreak_nonneg]. Qed.
Print Assumptions C38_tiebreak.
(** For every real p, because the clipping is symmetric. *)
Theorem C38_set : forall p t,
  Rsum (fun x => x) (tset p t) + Rsum (fun x => x) (tset (1 - p) (1 - t)) = 1 /\
  (0 <= t -> Forall (Rle 0) (tset p t)).
Proof. intros p t; split; [apply tset_total|apply tset_nonneg]. Qed.
Print Assumptions C38_set.
Example C38_nonvacuous : 0 <= 1 / 2 <= 1 /\ nth 3 (game (1 / 2)) 0 = 5 / 32.
Proof. split; [lra|]. unfold game; cbn [nth]. field. Qed.

(** C39: grad and hess are the derivatives. *)
Theorem C39_game : forall u p,
  is_derive (fun s => nth u (game s) 0) p (nth u (game_grad p) 0) /\
  is_derive (fun s => nth u (game_grad s) 0) p (nth u (game_hess p) 0).
Proof. intros; split; [apply game_d|apply game_h]. Qed.
Print Assumptions C39_game.
Theorem C39_tiebreak : forall u p,
  is_derive (fun s => nth u (tiebreak s) 0) p (nth u (tiebreak_grad p) 0) /\
  is_derive (fun s => nth u (tiebreak_grad s) 0) p (nth u (tiebreak_hess p) 0).
Proof. intros; split; [apply tiebreak_d|apply tiebreak_h]. Qed.
Print Assumptions C39_tiebreak.
Theorem C39_set : forall u p t, set_eps < p < 1 - set_eps ->
  exists d0 d1 h00 h10 h11,
  tset_grad p t 0 = Ok d0 /\ tset_grad p t 1 = Ok d1 /\
  tset_hess p t 0 0 = Ok h00 /\ tset_hess p t 1 0 = Ok h10 /\ tset_hess p t 1 1 = Ok h11 /\
  is_derive (fun s => nth u (tset s t) 0) p (nth u d0 0) /\
  is_derive (fun s => nth u (tset p s) 0) t (nth u d1 0) /\
  is_derive (fun s => get (tset_grad s t 0) u) p (nth u h00 0) /\
  is_derive (fun s => get (tset_grad s t 1) u) p (nth u h10 0) /\
  is_derive (fun s => get (tset_grad p s 0) u) t (nth u h10 0) /\
  is_derive (fun s => get (tset_grad p s 1) u) t (nth u h11 0).
Proof.
  intros u p t Hp.
  destruct (tset_d0 u p t Hp) as (d0 & E0 & D0).
  destruct (tset_d1 u p t ltac:(lra)) as (d1 & E1 & D1).
  destruct (tset_h00 u p t) as (h0 & F0 & H0).
  destruct (tset_h10 u p t) as (h1 & F1 & H1 & H1').
  destruct (tset_h11 u p t) as (h2 & F2 & H2).
  exists d0, d1, h0, h1, h2. tauto.
Qed.
Print Assumptions C39_set.
(** Finding: outside the clipping range the value is locally constant but grad
    is not zero; and only the lower triangle of the Hessian is available. *)
Theorem C39_set_clipped_finding : forall p t, p < set_eps \/ 1 - set_eps < p -> p <> 0 ->
  is_derive (fun s => nth 0 (tset s t) 0) p 0 /\
  exists d, tset_grad p t 0 = Ok d /\ nth 0 d 0 <> 0.
Proof.
  intros p t Hp H0. split; [now apply tset_outside|]. eexists. split; [reflexivity|]. cbn [nth].
  apply Rmult_integral_contrapositive_currified; [lra|]. now apply pow_nonzero.
Qed.
Print Assumptions C39_set_clipped_finding.
Theorem C39_set_upper_triangle_finding : forall p t, tset_hess p t 0 1 = Raise ValueError.
Proof. reflexivity. Qed.
Print Assumptions C39_set_upper_triangle_finding.
Example C39_nonvacuous : set_eps < 1 / 2 < 1 - set_eps /\ (1 - set_eps < 1 /\ 1 <> 0).
Proof. pose proof set_eps_bounds. lra. Qed.

(** C64: the entries are the probabilities given by the rules of the game. *)
Theorem C64_game_rules : forall p,
  (forall k, (k <= 2)%nat -> nth k (game p) 0 = reach 4 p (4 + k) 4 k) /\
  (0 <= p <= 1 -> is_series (fun k => reach 4 p 6 3 3 * (2 * p * (1 - p)) ^ k * p ^ 2) (nth 3 (game p) 0)).
Proof. intros p; split; [apply game_rules|apply game_deuce]. Qed.
Print Assumptions C64_game_rules.
Theorem C64_tiebreak_rules : forall p,
  (forall k, (k <= 5)%nat -> nth k (tiebreak p) 0 = reach 7 p (7 + k) 7 k) /\
  (0 <= p <= 1 -> is_series (fun k => reach 7 p 12 6 6 * (2 * p * (1 - p)) ^ k * p ^ 2) (nth 6 (tiebreak p) 0)).
Proof. intros p; split; [apply tiebreak_rules|apply tiebreak_deuce]. Qed.
Print Assumptions C64_tiebreak_rules.
Theorem C64_set_rules : forall p t, set_eps <= p <= 1 - set_eps ->
  (forall k, (k <= 4)%nat -> nth k (tset p t) 0 = reach 6 p (6 + k) 6 k) /\
  nth 5 (tset p t) 0 = reach 6 p 10 5 5 * p ^ 2 /\
  nth 6 (tset p t) 0 = reach 6 p 10 5 5 * (p * (1 - p) + (1 - p) * p) * t.
Proof.
  intros p t Hp. unfold tset. rewrite set_clip_id by exact Hp.
  split; [apply set_rules|]. split; [apply set_rules_75|apply set_rules_76].
Qed.
Print Assumptions C64_set_rules.
Example C64_nonvacuous : reach 4 (1 / 2) 5 4 1 = 1 / 8.
Proof. cbn -[Rplus Rmult Rminus]. field. Qed.

(** C65: layout of the feature axes.  With at most one feature axis entry [u] of
    cell [k] is the function at the value of cell [k]; with more the feature axes
    come out rotated (finding). *)
Theorem C65_layout_scalar_and_vector : forall es p k u,
  stack_swap es p [u] = nth u (es (p [])) 0 /\ stack_swap es p [k; u] = nth u (es (p [k])) 0.
Proof. intros; split; [apply layout0|apply (layout_rot es p k [] u)]. Qed.
Print Assumptions C65_layout_scalar_and_vector.
Theorem C65_layout_rotated_finding : forall es p k1 ks u,
  stack_swap es p (k1 :: ks ++ [u]) = nth u (es (p (ks ++ [k1]))) 0.
Proof. exact layout_rot. Qed.
Print Assumptions C65_layout_rotated_finding.
Example C65_nonvacuous : exists p, stack_swap game p [0; 1; 0]%nat <> nth 0 (game (p [0; 1]%nat)) 0.
Proof.
  exists (fun k => match k with [1%nat; 0%nat] => 1 | _ => 0 end). cbn. lra.
Qed.
