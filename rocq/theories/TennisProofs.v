From Coq Require Import Reals List Lra Lia.
From Coquelicot Require Import Coquelicot.
From Verif Require Import Prelude AnalyticSpec TennisModel TennisSpec.
Import List ListNotations.
Local Open Scope R_scope.

Lemma deuce_pos p : 0 < 1 - 2 * p * (1 - p).
Proof. nra. Qed.

Lemma game_total p : Rsum (fun x => x) (game p) + Rsum (fun x => x) (game (1 - p)) = 1.
Proof.
  pose proof (deuce_pos p). unfold Rsum, game; cbn [map fold_right].
  field; nra.
Qed.
Lemma tiebreak_total p : Rsum (fun x => x) (tiebreak p) + Rsum (fun x => x) (tiebreak (1 - p)) = 1.
Proof.
  pose proof (deuce_pos p). unfold Rsum, tiebreak; cbn [map fold_right].
  field; nra.
Qed.
Lemma set_entries_total p t : Rsum (fun x => x) (set_entries p t) + Rsum (fun x => x) (set_entries (1 - p) (1 - t)) = 1.
Proof. unfold Rsum, set_entries; cbn [map fold_right]. ring. Qed.
Lemma set_eps_bounds : 0 < set_eps < 1/2.
Proof. unfold set_eps; lra. Qed.
Lemma set_clip_sym p : set_clip (1 - p) = 1 - set_clip p.
Proof.
  pose proof set_eps_bounds. unfold set_clip, Rmin.
  repeat (match goal with |- context [Rle_dec ?a ?b] => destruct (Rle_dec a b) end);
  unfold Rmax; repeat (match goal with |- context [Rle_dec ?a ?b] => destruct (Rle_dec a b) end); lra.
Qed.
Lemma set_clip_range p : set_eps <= set_clip p <= 1 - set_eps.
Proof.
  pose proof set_eps_bounds. unfold set_clip, Rmin.
  repeat (match goal with |- context [Rle_dec ?a ?b] => destruct (Rle_dec a b) end);
  unfold Rmax; repeat (match goal with |- context [Rle_dec ?a ?b] => destruct (Rle_dec a b) end); lra.
Qed.
Lemma set_clip_id p : set_eps <= p <= 1 - set_eps -> set_clip p = p.
Proof.
  intros. unfold set_clip, Rmin.
  repeat (match goal with |- context [Rle_dec ?a ?b] => destruct (Rle_dec a b) end);
  unfold Rmax; repeat (match goal with |- context [Rle_dec ?a ?b] => destruct (Rle_dec a b) end); lra.
Qed.
Lemma tset_total p t : Rsum (fun x => x) (tset p t) + Rsum (fun x => x) (tset (1 - p) (1 - t)) = 1.
Proof. unfold tset. rewrite set_clip_sym. apply set_entries_total. Qed.

Ltac nn := repeat (apply Rmult_le_pos || apply pow_le); try lra.
Lemma game_nonneg p : 0 <= p <= 1 -> Forall (Rle 0) (game p).
Proof.
  intros. pose proof (deuce_pos p). unfold game.
  repeat (apply List.Forall_cons); try apply List.Forall_nil; unfold Rdiv; nn.
  left. now apply Rinv_0_lt_compat.
Qed.
Lemma tiebreak_nonneg p : 0 <= p <= 1 -> Forall (Rle 0) (tiebreak p).
Proof.
  intros. pose proof (deuce_pos p). unfold tiebreak.
  repeat (apply List.Forall_cons); try apply List.Forall_nil; unfold Rdiv; nn.
  left. now apply Rinv_0_lt_compat.
Qed.
Lemma tset_nonneg p t : 0 <= t -> Forall (Rle 0) (tset p t).
Proof.
  intros. pose proof (set_clip_range p). pose proof set_eps_bounds. unfold tset, set_entries.
  repeat (apply List.Forall_cons); try apply List.Forall_nil; unfold Rdiv; nn.
Qed.

(** Agreement with the rules. *)
Lemma game_rules p : forall k, (k <= 2)%nat -> nth k (game p) 0 = reach 4 p (4 + k) 4 k.
Proof.
  intros k Hk. destruct k as [|[|[|k]]]; [| | |lia]; unfold game; cbn -[pow Rplus Rmult Rminus]; ring.
Qed.
Lemma game_deuce_reach p : reach 4 p 6 3 3 = 20 * p ^ 3 * (1 - p) ^ 3.
Proof. cbn -[pow Rplus Rmult Rminus]. ring. Qed.
Lemma tiebreak_rules p : forall k, (k <= 5)%nat -> nth k (tiebreak p) 0 = reach 7 p (7 + k) 7 k.
Proof.
  intros k Hk. do 6 (destruct k as [|k]; [unfold tiebreak; cbn -[pow Rplus Rmult Rminus]; ring|]). lia.
Qed.
Lemma tiebreak_deuce_reach p : reach 7 p 12 6 6 = 924 * p ^ 6 * (1 - p) ^ 6.
Proof. cbn -[pow Rplus Rmult Rminus]. ring. Qed.

Lemma deuce_series (c p : R) : 0 <= p <= 1 ->
  is_series (fun k => c * (2 * p * (1 - p)) ^ k * p ^ 2) (c * p ^ 2 / (1 - 2 * p * (1 - p))).
Proof.
  intros Hp. assert (Habs : Rabs (2 * p * (1 - p)) < 1) by (rewrite Rabs_pos_eq; nra).
  pose proof (is_series_geom _ Habs) as Hg.
  pose proof (is_series_scal_l (c * p ^ 2) _ _ Hg) as Hs.
  eapply is_series_ext; [|replace (c * p ^ 2 / (1 - 2 * p * (1 - p))) with (scal (c * p ^ 2) (/ (1 - 2 * p * (1 - p)))) by reflexivity; exact Hs].
  intros n. unfold scal; cbn. unfold mult; cbn. ring.
Qed.
Lemma game_deuce p : 0 <= p <= 1 ->
  is_series (fun k => reach 4 p 6 3 3 * (2 * p * (1 - p)) ^ k * p ^ 2) (nth 3 (game p) 0).
Proof.
  intros Hp. pose proof (deuce_pos p) as Hd. rewrite game_deuce_reach.
  replace (nth 3 (game p) 0) with (20 * p ^ 3 * (1 - p) ^ 3 * p ^ 2 / (1 - 2 * p * (1 - p))).
  - now apply deuce_series.
  - unfold game; cbn [nth]. field. lra.
Qed.
Lemma tiebreak_deuce p : 0 <= p <= 1 ->
  is_series (fun k => reach 7 p 12 6 6 * (2 * p * (1 - p)) ^ k * p ^ 2) (nth 6 (tiebreak p) 0).
Proof.
  intros Hp. pose proof (deuce_pos p) as Hd. rewrite tiebreak_deuce_reach.
  replace (nth 6 (tiebreak p) 0) with (924 * p ^ 6 * (1 - p) ^ 6 * p ^ 2 / (1 - 2 * p * (1 - p))).
  - now apply deuce_series.
  - unfold tiebreak; cbn [nth]. field. lra.
Qed.
(** A set: 6-k for k <= 4 needs a lead of two; 7-5 and 7-6 go through 5-5. *)
Lemma set_rules p t : forall k, (k <= 4)%nat -> nth k (set_entries p t) 0 = reach 6 p (6 + k) 6 k.
Proof.
  intros k Hk. do 5 (destruct k as [|k]; [unfold set_entries; cbn -[pow Rplus Rmult Rminus]; ring|]). lia.
Qed.
Lemma set_rules_75 p t : nth 5 (set_entries p t) 0 = reach 6 p 10 5 5 * p ^ 2.
Proof. unfold set_entries; cbn -[pow Rplus Rmult Rminus]. ring. Qed.
Lemma set_rules_76 p t : nth 6 (set_entries p t) 0 = reach 6 p 10 5 5 * (p * (1 - p) + (1 - p) * p) * t.
Proof. unfold set_entries; cbn -[pow Rplus Rmult Rminus]. ring. Qed.

(** Derivatives *)
Lemma deuce_ne p : 1 - 2 * p * (1 - p) <> 0.
Proof. pose proof (deuce_pos p). lra. Qed.
Lemma deuce_ne2 p : 1 + - (2 * p * (1 + - p)) <> 0.
Proof. pose proof (deuce_pos p). lra. Qed.
Ltac nz := repeat apply Rmult_integral_contrapositive_currified; first [apply deuce_ne | apply deuce_ne2 | apply R1_neq_R0 | lra].
Ltac side := repeat split; try exact I; nz.
Ltac dgo := unfold Rdiv; cbn [nth]; auto_derive; [side|]; first [ring | field; side].

Lemma game_d u p : is_derive (fun s => nth u (game s) 0) p (nth u (game_grad p) 0).
Proof.
  destruct u as [|[|[|[|u]]]]; unfold game, game_grad.
  1,2,3,4: dgo.
  cbn [nth]. destruct u; apply (D_const 0 p).
Qed.
Lemma game_h u p : is_derive (fun s => nth u (game_grad s) 0) p (nth u (game_hess p) 0).
Proof.
  destruct u as [|[|[|[|u]]]]; unfold game_hess, game_grad.
  1,2,3,4: dgo.
  cbn [nth]. destruct u; apply (D_const 0 p).
Qed.
Lemma tiebreak_d u p : is_derive (fun s => nth u (tiebreak s) 0) p (nth u (tiebreak_grad p) 0).
Proof.
  do 7 (destruct u as [|u]; [unfold tiebreak, tiebreak_grad; dgo|]).
  unfold tiebreak, tiebreak_grad. cbn [nth]. destruct u; apply (D_const 0 p).
Qed.
Lemma tiebreak_h u p : is_derive (fun s => nth u (tiebreak_grad s) 0) p (nth u (tiebreak_hess p) 0).
Proof.
  do 7 (destruct u as [|u]; [unfold tiebreak_hess, tiebreak_grad; dgo|]).
  unfold tiebreak_hess, tiebreak_grad. cbn [nth]. destruct u; apply (D_const 0 p).
Qed.

Lemma set_entries_d u p t :
  exists d, tset_grad p t 0 = Ok d /\ is_derive (fun s => nth u (set_entries s t) 0) p (nth u d 0).
Proof.
  eexists. split; [reflexivity|].
  do 7 (destruct u as [|u]; [unfold set_entries; dgo|]).
  unfold set_entries. cbn [nth]. destruct u; apply (D_const 0 p).
Qed.
Lemma locally_clip p (f : R -> R) (l : R) : set_eps < p < 1 - set_eps ->
  is_derive f p l -> is_derive (fun s => f (set_clip s)) p l.
Proof.
  intros Hp Hd. apply (is_derive_ext_loc f); [|exact Hd].
  set (e := Rmin (p - set_eps) (1 - set_eps - p)).
  assert (He : 0 < e) by (unfold e; apply Rmin_pos; lra).
  exists (mkposreal e He). intros y Hy.
  rewrite set_clip_id; [reflexivity|].
  apply Rabs_def2 in Hy. cbn in Hy. unfold minus, plus, opp in Hy; cbn in Hy.
  pose proof (Rmin_l (p - set_eps) (1 - set_eps - p)). pose proof (Rmin_r (p - set_eps) (1 - set_eps - p)).
  fold e in H, H0. lra.
Qed.
Lemma tset_d0 u p t : set_eps < p < 1 - set_eps ->
  exists d, tset_grad p t 0 = Ok d /\ is_derive (fun s => nth u (tset s t) 0) p (nth u d 0).
Proof.
  intros Hp. destruct (set_entries_d u p t) as (d & E & Hd). exists d. split; [exact E|].
  unfold tset. apply (locally_clip p (fun s => nth u (set_entries s t) 0)); auto.
Qed.
Lemma tset_d1 u p t : set_eps <= p <= 1 - set_eps ->
  exists d, tset_grad p t 1 = Ok d /\ is_derive (fun s => nth u (tset p s) 0) t (nth u d 0).
Proof.
  intros Hp. eexists. split; [reflexivity|]. unfold tset. rewrite set_clip_id by exact Hp.
  unfold set_entries. cbn [repeat app].
  do 7 (destruct u as [|u]; [dgo|]).
  cbn [nth]. destruct u; apply (D_const 0 t).
Qed.
Lemma tset_outside p t u : p < set_eps \/ 1 - set_eps < p ->
  is_derive (fun s => nth u (tset s t) 0) p 0.
Proof.
  intros Hp. pose proof set_eps_bounds as He.
  apply (is_derive_ext_loc (fun _ => nth u (tset p t) 0)); [|apply (D_const _ p)].
  set (e := Rabs (p - (if Rlt_dec p set_eps then set_eps else 1 - set_eps))).
  assert (He' : 0 < e). { unfold e. apply Rabs_pos_lt. destruct (Rlt_dec p set_eps); lra. }
  exists (mkposreal e He'). intros y Hy. cbn in Hy.
  assert (Hy' : Rabs (y - p) < e) by exact Hy.
  assert (Hc : set_clip y = set_clip p).
  { unfold e in Hy'. apply Rabs_def2 in Hy'.
    destruct (Rlt_dec p set_eps).
    - rewrite Rabs_left in Hy' by lra. unfold set_clip. rewrite !Rmin_left, !Rmax_right by lra. reflexivity.
    - rewrite Rabs_right in Hy' by lra. unfold set_clip. rewrite !Rmin_right, !Rmax_left by lra. reflexivity. }
  unfold tset. now rewrite Hc.
Qed.
Lemma tset_h00 u p t : exists d, tset_hess p t 0 0 = Ok d /\
  is_derive (fun s => get (tset_grad s t 0) u) p (nth u d 0).
Proof.
  eexists. split; [reflexivity|]. unfold get, tset_grad.
  do 7 (destruct u as [|u]; [dgo|]).
  cbn [nth]. destruct u; apply (D_const 0 p).
Qed.
Lemma tset_h10 u p t : exists d, tset_hess p t 1 0 = Ok d /\
  is_derive (fun s => get (tset_grad s t 1) u) p (nth u d 0) /\
  is_derive (fun s => get (tset_grad p s 0) u) t (nth u d 0).
Proof.
  eexists. split; [reflexivity|]. unfold get, tset_grad. cbn [repeat app].
  split; do 7 (destruct u as [|u]; [dgo|]);
  cbn [nth]; destruct u; apply (D_const 0 _).
Qed.
Lemma tset_h11 u p t : exists d, tset_hess p t 1 1 = Ok d /\
  is_derive (fun s => get (tset_grad p s 1) u) t (nth u d 0).
Proof.
  eexists. split; [reflexivity|]. unfold get, tset_grad. cbn [repeat app].
  do 7 (destruct u as [|u]; [dgo|]);
  cbn [nth]; destruct u; apply (D_const 0 _).
Qed.

(** Layout *)
Lemma layout0 es p u : stack_swap es p [u] = nth u (es (p [])) 0.
Proof. reflexivity. Qed.
Lemma layout_rot es p k1 ks u : stack_swap es p (k1 :: ks ++ [u]) = nth u (es (p (ks ++ [k1]))) 0.
Proof.
  unfold stack_swap. assert (E : swap_ends (k1 :: ks ++ [u]) = u :: ks ++ [k1]).
  { destruct (ks ++ [u]) as [|a r] eqn:Er; [destruct ks; discriminate|].
    unfold swap_ends. rewrite <- Er, last_last, removelast_last. reflexivity. }
  rewrite E. reflexivity.
Qed.
