(** Independent vocabulary for the statements about parameters. *)
From Verif Require Import Prelude ParamModel ParamProofs.

Section Spec.
Context {A : Type}.

(** Entries of a parameter whose mask is [fixed?], in C order. *)
Definition entries_with (fixed : bool) (p : param A) : list A :=
  map fst (filter (fun vb => Bool.eqb (snd vb) fixed) (combine (p_vals p) (p_mask p))).

(** All free entries of a list of parameters, in order. *)
Definition free_entries (ps : list (param A)) : list A := concat (map (entries_with false) ps).
Definition fixed_entries (ps : list (param A)) : list A := concat (map (entries_with true) ps).

(** Number of free entries. *)
Definition n_free (ps : list (param A)) : nat :=
  count_occ bool_dec (concat (map p_mask ps)) false.
Definition n_fixed (ps : list (param A)) : nat :=
  count_occ bool_dec (concat (map p_mask ps)) true.

(** Rank, among all free entries, of entry [a] (C order) of parameter [i]. *)
Definition free_pos (ps : list (param A)) (i a : nat) : nat :=
  count_occ bool_dec
    (concat (map p_mask (firstn i ps)) ++
     firstn a (match nth_error ps i with Some p => p_mask p | None => [] end)) false.

(** Element (r, c) of a list of rows. *)
Definition elem {X} (rows : list (list X)) (r c : nat) : option X :=
  match nth_error rows r with Some row => nth_error row c | None => None end.

Lemma entries_free p : entries_with false p = compressed p.
Proof.
  unfold entries_with, compressed. generalize (p_vals p) (p_mask p).
  induction l as [|v l IH]; intros [|b m]; cbn; auto.
  destruct b; cbn; now rewrite IH.
Qed.
Lemma entries_fixed p : entries_with true p = fixed_vals p.
Proof.
  unfold entries_with, fixed_vals. generalize (p_vals p) (p_mask p).
  induction l as [|v l IH]; intros [|b m]; cbn; auto.
  destruct b; cbn; now rewrite IH.
Qed.
Lemma free_entries_flat ps : free_entries ps = free_concat ps.
Proof. unfold free_entries, free_concat. f_equal. apply map_ext. apply entries_free. Qed.

Lemma n_free_total ps : n_free ps = total_free ps.
Proof.
  unfold n_free. induction ps as [|p ps IH]; [reflexivity|].
  rewrite total_free_cons. cbn [map concat]. rewrite count_occ_app, IH. reflexivity.
Qed.
Lemma n_fixed_total ps : n_fixed ps = total_fixed ps.
Proof.
  unfold n_fixed. induction ps as [|p ps IH]; [reflexivity|].
  rewrite total_fixed_cons. cbn [map concat]. rewrite count_occ_app, IH. reflexivity.
Qed.

Lemma free_pos_rank ps i a p : nth_error ps i = Some p ->
  free_pos ps i a = total_free (firstn i ps) + free_rank (p_mask p) a.
Proof.
  intros H. unfold free_pos. rewrite H, count_occ_app.
  change (count_occ bool_dec (concat (map p_mask (firstn i ps))) false) with (n_free (firstn i ps)).
  now rewrite n_free_total.
Qed.

(** What [add_param] builds from arrays is well-formed. *)
Lemma Param_init_wf (v : nd A) m p :
  nd_wf v -> (forall m', m = Some m' -> nd_wf m') -> Param_init v m = Ok p -> param_wf p.
Proof.
  intros Hv Hm H. destruct m as [m|]; cbn in H.
  - destruct (shape_eqb (nd_shape m) (nd_shape v)) eqn:E; cbn in H; [|discriminate].
    injection H as <-. split; cbn; [exact Hv|]. apply shape_eqb_eq in E. rewrite <- E.
    apply Hm; reflexivity.
  - injection H as <-. split; cbn; [exact Hv|]. rewrite repeat_length. exact Hv.
Qed.
End Spec.
