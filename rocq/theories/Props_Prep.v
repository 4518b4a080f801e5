(** Properties C48-C50 (preprocessing.py).  total_order, index_ok, increasing,
    extra, selected, tabulates are defined in PrepSpec. *)
From Coq Require Import Reals Sorting.Sorted Lra.
From Verif Require Import Prelude PrepModel PrepSpec PrepProofs.
Local Open Scope R_scope.

Theorem C48_series : forall L leb levels rows trs add res ax, total_order leb -> index_ok levels rows ->
  prepare_series L leb levels rows (Some trs) add = (res, ax) ->
  Forall2 (fun a nl => increasing leb a /\ forall x, In x a <-> In x (snd nl) \/ extra add (fst nl) x) ax levels /\
  Forall2 (fun e t => fst e = fst t /\ tabulates ax rows (snd t) (snd e)) res trs.
Proof.
  intros L leb levels rows trs add res ax TO [Hl Hr] E. unfold prepare_series in E. inversion E; subst; clear E.
  split; [now apply axes_spec|]. induction trs as [|[n f] trs IH]; cbn [map]; constructor; [|exact IH].
  cbn [fst snd]. split; [reflexivity|now apply reindex_tabulates].
Qed.
Print Assumptions C48_series.
(** Without transformations: the sums, under the name N. *)
Theorem C48_series_default : forall L leb levels rows add,
  prepare_series L leb levels rows None add = prepare_series L leb levels rows (Some [(N_, fun l => Some (fold_right Rplus 0 l))]) add.
Proof. reflexivity. Qed.
Print Assumptions C48_series_default.
Theorem C48_series_flat : forall L leb rows trs add res axis, total_order leb ->
  prepare_series_flat L leb rows (Some trs) add = (res, axis) ->
  increasing leb axis /\
  (forall x, In x axis <-> In x (map fst rows) \/ match add with None => False | Some e => In x e end) /\
  Forall2 (fun e t => fst e = fst t /\ tabulates [axis] (map (fun r => ([fst r], snd r)) rows) (snd t) (snd e)) res trs.
Proof.
  intros L leb rows trs add res axis TO E. unfold prepare_series_flat in E. inversion E; subst; clear E.
  set (ax0 := sorted L leb (dedup L leb (map fst rows))).
  assert (H0 : increasing leb ax0 /\ forall x, In x ax0 <-> In x (map fst rows)).
  { split; [apply sorted_increasing; [exact TO|now apply dedup_NoDup]|]. intros x. unfold ax0. now rewrite sorted_in, dedup_in. }
  set (axis := match add with Some e => sorted L leb (dedup L leb (ax0 ++ e)) | None => ax0 end).
  split; [|split].
  - unfold axis. destruct add; [|apply H0]. apply sorted_increasing; [exact TO|now apply dedup_NoDup].
  - intros x. unfold axis. destruct add as [e|]; [|rewrite (proj2 H0); tauto].
    now rewrite sorted_in, dedup_in, in_app_iff, (proj2 H0) by exact TO.
  - assert (EP : map (fun x => [x]) axis = from_product L [axis]).
    { cbn [from_product]. clear. induction axis as [|x a IH]; cbn; [reflexivity|]. now rewrite IH. }
    induction trs as [|[n f] trs IH]; cbn [map]; constructor; [|exact IH]. cbn [fst snd]. split; [reflexivity|].
    rewrite EP. now apply (reindex_tabulates L leb TO [axis]).
Qed.
Print Assumptions C48_series_flat.
(** Nothing is lost or counted twice: an additive transformation (a sum of g over the
    cell's observations, e.g. the count or the sum) adds up to its grand total. *)
Theorem C48_conservation : forall L leb levels rows name (g : R -> R) add res ax, total_order leb -> index_ok levels rows ->
  prepare_series L leb levels rows (Some [(name, fun vs => Some (fold_right Rplus 0 (map g vs)))]) add = (res, ax) ->
  exists shape vals, res = [(name, (shape, vals))] /\
  fold_right Rplus 0 vals = fold_right Rplus 0 (map (fun r => g (snd r)) rows).
Proof.
  intros L leb levels rows name g add res ax TO H E. unfold prepare_series in E. inversion E; subst; clear E.
  eexists _, _. split; [reflexivity|]. exact (total_cells L leb TO levels add rows g H).
Qed.
Print Assumptions C48_conservation.
(** A two-level series: labels (1|2) x (5|7), an unused label 9 in the second level,
    and an extra label 0 asked for the first. *)
Definition ex_levels : list (nat * list nat) := [(1%nat, [2; 1]%nat); (2%nat, [7; 9; 5]%nat)].
Definition ex_rows : list (list nat * R) := [([2; 5]%nat, 10); ([1; 7]%nat, 3); ([2; 5]%nat, 4)].
Definition ex_out := prepare_series nat Nat.leb ex_levels ex_rows None (Some [(1%nat, [0]%nat)]).
Example C48_nonvacuous : total_order Nat.leb /\ index_ok ex_levels ex_rows /\
  snd ex_out = [[0; 1; 2]; [5; 7; 9]]%nat /\
  map (fun e => fst (snd e)) (fst ex_out) = [[3; 3]%nat] /\
  map (fun e => snd (snd e)) (fst ex_out) = [[0; 0; 0; 0; 3 + 0; 0; 10 + (4 + 0); 0; 0]].
Proof.
  split; [|split; [|repeat split]].
  - unfold total_order. setoid_rewrite Nat.leb_le. repeat split; intros; lia.
  - unfold index_ok, ex_levels, ex_rows. split.
    + repeat constructor; cbn; lia.
    + repeat (constructor; cbn; try lia).
Qed.

(** C49 *)
Theorem C49_dataframe : forall L leb levels rows trs add res ax, total_order leb -> index_ok levels rows ->
  prepare_dataframe L leb levels rows trs add = (res, ax) ->
  Forall2 (fun a nl => increasing leb a /\ forall x, In x a <-> In x (snd nl) \/ extra add (fst nl) x) ax levels /\
  (exists arr, In (N_, arr) res) /\
  (forall arr, In (N_, arr) res ->
     tabulates ax (map (fun r => (fst r, fst (snd r))) rows) (fun l => Some (fold_right Rplus 0 l)) arr) /\
  (forall name f, In (name, f) trs -> name <> N_ -> exists arr, In (name, arr) res /\
     tabulates ax (map (fun r => (fst r, snd (snd r) * fst (snd r))) rows) f arr) /\
  (forall name arr, In (name, arr) res -> name <> N_ -> exists f, In (name, f) trs).
Proof.
  intros L leb levels rows trs add res ax TO [Hl Hr] E. unfold prepare_dataframe in E. inversion E; subst; clear E.
  set (ax := axes L leb levels add).
  set (w := (map (@length L) ax, reindex_fillna L leb (groupby_agg L leb (map (fun r => (fst r, fst (snd r))) rows) (fun l => Some (rsum l))) (from_product L ax))).
  set (base := map _ trs).
  split; [now apply axes_spec|].
  assert (HN : forall arr, In (N_, arr) (dict_set base N_ w) -> arr = w).
  { intros arr. unfold dict_set. destruct (existsb (fun e => Nat.eqb (fst e) N_) base) eqn:E.
    - intros H. apply in_map_iff in H. destruct H as ([n a] & H1 & H2). cbn [fst] in H1.
      destruct (Nat.eqb_spec n N_); inversion H1; subst; congruence.
    - rewrite in_app_iff. intros [H|[H|[]]]; [|now inversion H]. exfalso.
      assert (existsb (fun e => Nat.eqb (fst e) N_) base = true); [|congruence]. apply existsb_exists. exists (N_, arr). split; [exact H|apply Nat.eqb_refl]. }
  assert (HB : forall name arr, name <> N_ -> (In (name, arr) (dict_set base N_ w) <-> In (name, arr) base)).
  { intros name arr Hne. unfold dict_set. destruct (existsb (fun e => Nat.eqb (fst e) N_) base) eqn:E.
    - split.
      + intros H. apply in_map_iff in H. destruct H as ([n a] & H1 & H2). cbn [fst] in H1.
        destruct (Nat.eqb_spec n N_); inversion H1; subst; [congruence|assumption].
      + intros H. apply in_map_iff. exists (name, arr). split; [|exact H]. cbn [fst]. destruct (Nat.eqb_spec name N_); [congruence|reflexivity].
    - rewrite in_app_iff. split; [intros [H|[H|[]]]; [exact H|inversion H; congruence]|now left]. }
  split; [|split; [|split]].
  - exists w. unfold dict_set. destruct (existsb (fun e => Nat.eqb (fst e) N_) base) eqn:E.
    + apply existsb_exists in E. destruct E as ([n a] & H1 & H2). apply in_map_iff. exists (n, a). split; [|exact H1]. cbn [fst] in *. now rewrite H2.
    + apply in_app_iff. right. now left.
  - intros arr H. apply HN in H. subst arr. now apply reindex_tabulates.
  - intros name f Hin Hne. eexists. split.
    + apply HB; [exact Hne|]. unfold base. apply in_map_iff. exists (name, f). split; [reflexivity|exact Hin].
    + now apply reindex_tabulates.
  - intros name arr Hin Hne. apply HB in Hin; [|exact Hne]. unfold base in Hin. apply in_map_iff in Hin.
    destruct Hin as ([n f] & H1 & H2). inversion H1; subst. eauto.
Qed.
Print Assumptions C49_dataframe.
Definition ex_df : list (list nat * (R * R)) := [([2; 5]%nat, (2, 10)); ([1; 7]%nat, (1, 3)); ([2; 5]%nat, (5, 1))].
Example C49_nonvacuous : index_ok ex_levels ex_df /\
  map (fun e => (fst e, snd (snd e))) (fst (prepare_dataframe nat Nat.leb ex_levels ex_df [(3%nat, fun l => Some (rsum l))] None)) =
  [(3%nat, [0; 3 * 1 + 0; 0; 10 * 2 + (1 * 5 + 0); 0; 0]); (N_, [0; 1 + 0; 0; 2 + (5 + 0); 0; 0])].
Proof.
  split.
  - unfold index_ok, ex_levels, ex_df. split.
    + repeat constructor; cbn; lia.
    + repeat (constructor; cbn; try lia).
  - reflexivity.
Qed.

(** C50 *)
Lemma df_count_row_spec size v : (2 <= size)%nat -> exists row, df_count_row size v = Ok row /\ length row = size /\
  forall j, (j < size)%nat -> nth j row false =
    (if (j =? size - 1)%nat then Z.eqb v (Z.of_nat (size - 2))
     else if (j =? size - 2)%nat then (v <? 0)%Z || (Z.of_nat (size - 2) <? v)%Z
     else Z.eqb v (Z.of_nat j)).
Proof.
  intros Hs. unfold df_count_row. destruct size as [|[|m]]; try lia. replace (S (S m) - 1)%nat with (S m) by lia. replace (S (S m) - 2)%nat with m by lia.
  set (X := map (fun c => Z.eqb v (Z.of_nat c)) (seq 0 (S m))).
  assert (EX : X = map (fun c => Z.eqb v (Z.of_nat c)) (seq 0 m) ++ [Z.eqb v (Z.of_nat m)]).
  { unfold X. rewrite seq_S, map_app. reflexivity. }
  assert (HL : length X = S m) by (unfold X; now rewrite map_length, seq_length).
  unfold insert_before_last. destruct X as [|x0 X0] eqn:E0; [discriminate|]. rewrite <- E0 in *. clear x0 X0 E0.
  eexists. split; [reflexivity|].
  assert (EO : negb (existsb (fun b => b) X) = (v <? 0)%Z || (Z.of_nat m <? v)%Z).
  { destruct (existsb (fun b => b) X) eqn:Ex.
    - apply existsb_exists in Ex. destruct Ex as (y & Hy & ->). unfold X in Hy. apply in_map_iff in Hy. destruct Hy as (c & Hc & Hin).
      apply in_seq in Hin. apply Z.eqb_eq in Hc. subst v. cbn [negb]. symmetry. apply orb_false_iff. rewrite !Z.ltb_ge. lia.
    - cbn [negb]. symmetry. apply orb_true_iff. rewrite !Z.ltb_lt. destruct (Z.lt_ge_cases v 0); [now left|]. destruct (Z.lt_ge_cases (Z.of_nat m) v); [now right|]. exfalso.
      assert (existsb (fun b => b) X = true); [|congruence]. apply existsb_exists. exists true. split; [|reflexivity].
      unfold X. apply in_map_iff. exists (Z.to_nat v). split; [apply Z.eqb_eq; lia|]. apply in_seq. lia. }
  rewrite EO, HL, EX, removelast_last. replace (S m - 1)%nat with m by lia.
  assert (Hm : length (map (fun c => Z.eqb v (Z.of_nat c)) (seq 0 m)) = m) by now rewrite map_length, seq_length.
  rewrite skipn_app, Hm, Nat.sub_diag. rewrite skipn_all2 by lia. cbn [app skipn].
  split; [rewrite app_length, Hm; cbn; lia|]. intros j Hj.
  destruct (Nat.eqb_spec j (S m)) as [->|Hne].
  - rewrite app_nth2 by lia. rewrite Hm. replace (S m - m)%nat with 1%nat by lia. reflexivity.
  - destruct (Nat.eqb_spec j m) as [->|Hne'].
    + rewrite app_nth2 by lia. rewrite Hm, Nat.sub_diag. reflexivity.
    + rewrite app_nth1 by lia. rewrite (nth_indep _ false (Z.eqb v (Z.of_nat 0))) by lia.
      rewrite (map_nth (fun c => Z.eqb v (Z.of_nat c))), seq_nth by lia. reflexivity.
Qed.
Theorem C50_df_count : forall series size, (2 <= size)%nat ->
  exists rows, df_count series size = Ok rows /\
  Forall2 (fun v row => length row = size /\
    (forall j, (j < size)%nat -> nth j row false =
      (if (j =? size - 1)%nat then Z.eqb v (Z.of_nat (size - 2))
       else if (j =? size - 2)%nat then (v <? 0)%Z || (Z.of_nat (size - 2) <? v)%Z
       else Z.eqb v (Z.of_nat j)))) series rows.
Proof.
  intros series size Hs. unfold df_count. replace (size <=? 1)%nat with false by (symmetry; apply Nat.leb_gt; lia).
  induction series as [|v s (rows & E & H)]; cbn [rmapM]; [eexists; split; [reflexivity|constructor]|].
  destruct (df_count_row_spec size v Hs) as (row & Er & Hl & Hn). rewrite Er, E. cbn [rbind].
  eexists. split; [reflexivity|]. constructor; auto.
Qed.
Print Assumptions C50_df_count.
(** Exactly one true entry per row. *)
Theorem C50_exactly_one : forall series size rows, (2 <= size)%nat -> df_count series size = Ok rows ->
  Forall (fun row => exists! j, (j < size)%nat /\ nth j row false = true) rows.
Proof.
  intros series size rows Hs E. destruct (C50_df_count series size Hs) as (rows' & E' & H). rewrite E in E'. inversion E'; subst rows'; clear E E'.
  induction H as [|v row vs rows [Hl Hn] _ IH]; constructor; [|exact IH].
  destruct (Z.eq_dec v (Z.of_nat (size - 2))) as [E|E]; [|destruct (Z.lt_ge_cases v 0) as [E1|E1]; [|destruct (Z.lt_ge_cases (Z.of_nat (size - 2)) v) as [E2|E2]]].
  - exists (size - 1)%nat. split.
    + split; [lia|]. rewrite Hn by lia. rewrite Nat.eqb_refl. now apply Z.eqb_eq.
    + intros j [Hj Ht]. rewrite Hn in Ht by exact Hj. destruct (Nat.eqb_spec j (size - 1)); [auto|]. exfalso.
      destruct (Nat.eqb_spec j (size - 2)); [apply orb_true_iff in Ht; rewrite !Z.ltb_lt in Ht; lia|]. apply Z.eqb_eq in Ht. lia.
  - exists (size - 2)%nat. split.
    + split; [lia|]. rewrite Hn by lia. rewrite Nat.eqb_refl. destruct (Nat.eqb_spec (size - 2) (size - 1)); [lia|]. apply orb_true_iff. left. now apply Z.ltb_lt.
    + intros j [Hj Ht]. rewrite Hn in Ht by exact Hj. destruct (Nat.eqb_spec j (size - 1)); [apply Z.eqb_eq in Ht; lia|].
      destruct (Nat.eqb_spec j (size - 2)); [auto|]. apply Z.eqb_eq in Ht. lia.
  - exists (size - 2)%nat. split.
    + split; [lia|]. rewrite Hn by lia. rewrite Nat.eqb_refl. destruct (Nat.eqb_spec (size - 2) (size - 1)); [lia|]. apply orb_true_iff. right. now apply Z.ltb_lt.
    + intros j [Hj Ht]. rewrite Hn in Ht by exact Hj. destruct (Nat.eqb_spec j (size - 1)); [apply Z.eqb_eq in Ht; lia|].
      destruct (Nat.eqb_spec j (size - 2)); [auto|]. apply Z.eqb_eq in Ht. lia.
  - exists (Z.to_nat v). split.
    + split; [lia|]. rewrite Hn by lia. destruct (Nat.eqb_spec (Z.to_nat v) (size - 1)); [lia|]. destruct (Nat.eqb_spec (Z.to_nat v) (size - 2)); [lia|]. apply Z.eqb_eq. lia.
    + intros j [Hj Ht]. rewrite Hn in Ht by exact Hj. destruct (Nat.eqb_spec j (size - 1)); [apply Z.eqb_eq in Ht; lia|].
      destruct (Nat.eqb_spec j (size - 2)); [apply orb_true_iff in Ht; rewrite !Z.ltb_lt in Ht; lia|]. apply Z.eqb_eq in Ht. lia.
Qed.
Print Assumptions C50_exactly_one.
(** Finding: the value size-2 is reported in the column labelled size-1. *)
Theorem C50_last_columns_swapped : forall size, (2 <= size)%nat ->
  exists row, df_count [Z.of_nat (size - 2)] size = Ok [row] /\ nth (size - 1) row false = true /\ nth (size - 2) row false = false.
Proof.
  intros size Hs. destruct (C50_df_count [Z.of_nat (size - 2)] size Hs) as (rows & E & H). inversion H as [|? row ? rows' [Hl Hn] H' Ev Er]. inversion H'. subst rows'. rewrite <- Er in E. clear Er.
  exists row. split; [exact E|]. rewrite !Hn by lia. rewrite !Nat.eqb_refl. split; [apply Z.eqb_refl|].
  destruct (Nat.eqb_spec (size - 2) (size - 1)); [lia|]. apply orb_false_iff. rewrite !Z.ltb_ge. lia.
Qed.
Print Assumptions C50_last_columns_swapped.
Theorem C50_small_size : forall series size, (size <= 1)%nat -> df_count series size = Raise IndexError.
Proof. intros. unfold df_count. now rewrite (proj2 (Nat.leb_le size 1)). Qed.
Print Assumptions C50_small_size.
Example C50_nonvacuous : df_count [0; 1; 2; 5; -1]%Z 4 =
  Ok [[true; false; false; false]; [false; true; false; false]; [false; false; false; true]; [false; false; true; false]; [false; false; true; false]].
Proof. reflexivity. Qed.
