(** C91: the two-sided model of the library's own test, for any number of items. *)
From Verif Require Import Prelude DenseModel AnalyticSpec NDArray NDProofs TensorModel TensorSpec TensorUfunc FuncModel FuncSpec FTModel FTSpec FTPrim FTWrap FTRep FTBuilt FTValue FTFindings DenseProofs FTTwoSided.
From Verif Require FuncLemmas FuncPrim.
From Coquelicot Require Import Coquelicot.
From Coq Require Import Reals Lra Sorted FunctionalExtensionality.
Import List ListNotations.
Open Scope R_scope.
#[local] Existing Instance loose.

(** what each item of the first axis scores against one of the second, and
    what it concedes *)
Definition scored (a b : nat -> R) (h : R) (i j : nat) : R := exp (a i - b j + h).
Definition conceded (a b : nat -> R) (h : R) (i j : nat) : R := exp (a j - b i - h).

(** for every parameter the library accepts: arrays of any representation *)
Theorem C91_value_any : forall N ps i j, (1 <= N)%nat -> are_pars (sides N) ps -> (i < N)%nat -> (j < N)%nat ->
  let a := fun k : nat => pentry (nth 0 ps (PNum 0)) (k :: nil) in
  let b := fun k : nat => pentry (nth 1 ps (PNum 0)) (k :: nil) in
  let h := pentry (nth 2 ps (PNum 0)) [] in
  at_res (t_call two_sided ps) [] [] [i; j] [] = ln (scored a b h i j + conceded a b h i j).
Proof. intros N ps i j HN Pp Hi Hj. exact (two_sided_at N HN ps Pp i j Hi Hj). Qed.
Print Assumptions C91_value_any.
Lemma vec_at n f k : (k < n)%nat -> pentry (vec n f) (k :: nil) = f k.
Proof.
  intros Hk. unfold pentry, parr, vec. cbn [vden shp el ns length firstn skipn]. unfold get. cbn [xs ys ns ds at_]. rewrite (clampN n k Hk). reflexivity.
Qed.
Theorem C91_value : forall N a b h i j, (1 <= N)%nat -> (i < N)%nat -> (j < N)%nat ->
  at_res (t_call two_sided [vec N a; vec N b; PNum h]) [] [] [i; j] [] = ln (scored a b h i j + conceded a b h i j).
Proof.
  intros N a b h i j HN Hi Hj. rewrite (C91_value_any N [vec N a; vec N b; PNum h] i j HN ltac:(repeat constructor) Hi Hj).
  unfold scored, conceded. cbn [nth]. rewrite !vec_at by assumption. reflexivity.
Qed.
Print Assumptions C91_value.
Theorem C91_derivatives : forall N, (1 <= N)%nat -> t_correct (sides N) ([N; N]%nat, []) (are_pars (sides N)) two_sided.
Proof. intros N HN. exact (tbuilt_correct _ _ _ _ _ _ _ (two_sided_built N HN)). Qed.
Print Assumptions C91_derivatives.

(** moving along any velocity (da, db, dh) *)
Definition line N (a b : nat -> R) (h : R) (da db : nat -> R) (dh : R) (s : R) : list pval := [vec N (fun k => a k + s * da k); vec N (fun k => b k + s * db k); PNum (h + s * dh)].
Lemma line_curve N a b h da db dh v :
  (forall k, (k < N)%nat -> v 0%nat (k :: nil) = da k) -> (forall k, (k < N)%nat -> v 1%nat (k :: nil) = db k) -> v 2%nat [] = dh ->
  par_curve (sides N) (line N a b h da db dh) v 0.
Proof.
  intros Va Vb Vh. split; [intros s; repeat constructor|]. intros p x Hp Hx. destruct p as [|[|[|p]]]; [| | |cbn in Hp; lia]; cbn [nth line].
  - cbn [nth sides] in Hx. change (flat ((N :: nil), [])) with (N :: nil) in Hx. apply In_indices in Hx. inversion Hx as [|k s' l l' Hk H']; subst. inversion H'; subst. rewrite Va by exact Hk.
    apply (is_derive_ext (fun s => a k + s * da k)); [intros t; now rewrite vec_at|]. auto_derive; [trivial|ring].
  - cbn [nth sides] in Hx. change (flat ((N :: nil), [])) with (N :: nil) in Hx. apply In_indices in Hx. inversion Hx as [|k s' l l' Hk H']; subst. inversion H'; subst. rewrite Vb by exact Hk.
    apply (is_derive_ext (fun s => b k + s * db k)); [intros t; now rewrite vec_at|]. auto_derive; [trivial|ring].
  - cbn [nth sides] in Hx. change (flat ([], [])) with (@nil nat) in Hx. destruct Hx as [<-|[]]. rewrite Vh.
    apply (is_derive_ext (fun s => h + s * dh)); [intros t; reflexivity|]. auto_derive; [trivial|ring].
Qed.
Lemma line_0 N a b h da db dh : line N a b h da db dh 0 = [vec N a; vec N b; PNum h].
Proof. unfold line. repeat f_equal; try (apply functional_extensionality; intros k); ring. Qed.
Lemma directional N a b h da db dh v i j : (1 <= N)%nat -> (i < N)%nat -> (j < N)%nat ->
  (forall k, (k < N)%nat -> v 0%nat (k :: nil) = da k) -> (forall k, (k < N)%nat -> v 1%nat (k :: nil) = db k) -> v 2%nat [] = dh ->
  pairing (sides N) (fun p x => at_res (t_grad two_sided [vec N a; vec N b; PNum h] p) x [] [i; j] []) v =
  (scored a b h i j * (da i - db j + dh) + conceded a b h i j * (da j - db i - dh)) / (scored a b h i j + conceded a b h i j).
Proof.
  intros HN Hi Hj Va Vb Vh. set (c := line N a b h da db dh).
  pose proof (line_curve N a b h da db dh v Va Vb Vh) as Pc. fold c in Pc.
  pose proof (line_0 N a b h da db dh) as E0. fold c in E0.
  pose proof (tc_grad _ _ _ _ (C91_derivatives N HN) c v 0 Pc) as G.
  assert (L : locally 0 (fun s => are_pars (sides N) (c s))) by (apply filter_forall; intros s; repeat constructor).
  specialize (G L [i; j] [] (ij_in N i j Hi Hj) (or_introl eq_refl)).
  rewrite E0 in G. apply is_derive_unique in G. rewrite <- G. apply is_derive_unique.
  apply (is_derive_ext (fun s => ln (exp ((a i + s * da i) - (b j + s * db j) + (h + s * dh)) + exp ((a j + s * da j) - (b i + s * db i) - (h + s * dh))))).
  - intros s. unfold c, line. symmetry. exact (C91_value N _ _ _ i j HN Hi Hj).
  - unfold scored, conceded. auto_derive.
    + repeat split; try apply Rplus_lt_0_compat; try apply exp_pos; auto.
    + rewrite ?Rmult_0_l, ?Rplus_0_r. unfold Rminus. field. pose proof (exp_pos (a i + - b j + h)). pose proof (exp_pos (a j + - b i + - h)). lra.
Qed.
Definition is (u v : nat) : R := if Nat.eqb u v then 1 else 0.
Lemma eqb_idx_one u v : eqb_idx (u :: nil) (v :: nil) = Nat.eqb u v.
Proof.
  destruct (FuncPrim.eqb_idx_spec (u :: nil) (v :: nil)) as [E|Hn]; destruct (Nat.eqb_spec u v) as [Em|Hm]; try reflexivity; exfalso; [now injection E|apply Hn; now rewrite Em].
Qed.
(** the partial derivatives in closed form *)
Theorem C91_gradient : forall N a b h i j k, (1 <= N)%nat -> (i < N)%nat -> (j < N)%nat -> (k < N)%nat ->
  let ps := [vec N a; vec N b; PNum h] in let s := scored a b h i j in let c := conceded a b h i j in
  at_res (t_grad two_sided ps 0) (k :: nil) [] [i; j] [] = (is i k * s + is j k * c) / (s + c) /\
  at_res (t_grad two_sided ps 1) (k :: nil) [] [i; j] [] = - ((is j k * s + is i k * c) / (s + c)) /\
  at_res (t_grad two_sided ps 2) [] [] [i; j] [] = (s - c) / (s + c).
Proof.
  intros N a b h i j k HN Hi Hj Hk ps s c.
  assert (Pos : 0 < s + c) by (unfold s, c, scored, conceded; pose proof (exp_pos (a i - b j + h)); pose proof (exp_pos (a j - b i - h)); lra).
  assert (Ik : In (k :: nil) (indices (N :: nil))) by (apply In_indices; now repeat constructor).
  split; [|split].
  - pose proof (pairing_unit (sides N) (fun p x => at_res (t_grad two_sided ps p) x [] [i; j] []) 0 (k :: nil) ltac:(cbn; lia) Ik) as P. cbv beta in P. rewrite <- P.
    rewrite (directional N a b h (fun m => is m k) (fun _ => 0) 0 _ i j HN Hi Hj).
    + fold s c. field. lra.
    + intros m _. cbn [Nat.eqb andb]. unfold is. now rewrite eqb_idx_one.
    + reflexivity. + reflexivity.
  - pose proof (pairing_unit (sides N) (fun p x => at_res (t_grad two_sided ps p) x [] [i; j] []) 1 (k :: nil) ltac:(cbn; lia) Ik) as P. cbv beta in P. rewrite <- P.
    rewrite (directional N a b h (fun _ => 0) (fun m => is m k) 0 _ i j HN Hi Hj).
    + fold s c. field. lra.
    + reflexivity.
    + intros m _. cbn [Nat.eqb andb]. unfold is. now rewrite eqb_idx_one.
    + reflexivity.
  - pose proof (pairing_unit (sides N) (fun p x => at_res (t_grad two_sided ps p) x [] [i; j] []) 2 [] ltac:(cbn; lia) (or_introl eq_refl)) as P. cbv beta in P. rewrite <- P.
    rewrite (directional N a b h (fun _ => 0) (fun _ => 0) 1 _ i j HN Hi Hj).
    + fold s c. field. lra.
    + reflexivity. + reflexivity. + reflexivity.
Qed.
Print Assumptions C91_gradient.
(** the model does not see a constant moved from [b] to [a]: the fit needs the
    constraint of the test *)
Theorem C91_constraint_needed : forall N a b h t i j, (1 <= N)%nat -> (i < N)%nat -> (j < N)%nat ->
  at_res (t_call two_sided [vec N (fun k => a k + t); vec N (fun k => b k + t); PNum h]) [] [] [i; j] [] =
  at_res (t_call two_sided [vec N a; vec N b; PNum h]) [] [] [i; j] [].
Proof.
  intros N a b h t i j HN Hi Hj. rewrite !C91_value by assumption. unfold scored, conceded. f_equal. f_equal; f_equal; ring.
Qed.
Print Assumptions C91_constraint_needed.
Example C91_nonvacuous : at_res (t_grad two_sided [vec 2 (fun _ => 0); vec 2 (fun _ => 0); PNum 0] 0) (0%nat :: nil) [] [0; 1]%nat [] = / 2 /\
  at_res (t_grad two_sided [vec 2 (fun _ => 0); vec 2 (fun _ => 0); PNum 0] 0) (0%nat :: nil) [] [0; 0]%nat [] = 1 /\
  at_res (t_grad two_sided [vec 2 (fun _ => 0); vec 2 (fun _ => 0); PNum 0] 1) (1%nat :: nil) [] [0; 1]%nat [] = - / 2 /\
  at_res (t_grad two_sided [vec 2 (fun _ => 0); vec 2 (fun _ => 0); PNum 0] 2) [] [] [0; 1]%nat [] = 0.
Proof.
  assert (E : exp (0 - 0 + 0) = 1 /\ exp (0 - 0 - 0) = 1) by (split; (replace (0 - 0 + 0) with 0 by ring); (replace (0 - 0 - 0) with 0 by ring); exact exp_0). destruct E as [E1 E2].
  pose proof (fun i j k Hi Hj Hk => C91_gradient 2 (fun _ => 0) (fun _ => 0) 0 i j k ltac:(lia) Hi Hj Hk) as G. cbv zeta in G. unfold scored, conceded in G.
  split; [|split; [|split]].
  - rewrite (proj1 (G 0%nat 1%nat 0%nat ltac:(lia) ltac:(lia) ltac:(lia))), E1, E2. unfold is. cbn [Nat.eqb]. field.
  - rewrite (proj1 (G 0%nat 0%nat 0%nat ltac:(lia) ltac:(lia) ltac:(lia))), E1, E2. unfold is. cbn [Nat.eqb]. field.
  - rewrite (proj1 (proj2 (G 0%nat 1%nat 1%nat ltac:(lia) ltac:(lia) ltac:(lia)))), E1, E2. unfold is. cbn [Nat.eqb]. field.
  - rewrite (proj2 (proj2 (G 0%nat 1%nat 1%nat ltac:(lia) ltac:(lia) ltac:(lia)))), E1, E2. field.
Qed.
Print Assumptions C91_nonvacuous.
