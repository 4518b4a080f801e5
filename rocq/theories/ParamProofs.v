(** Proofs about ParamModel.v *)
From Verif Require Import Prelude ParamModel.

Section Proofs.
Context {A : Type}.

(** Interleave free and fixed values following a mask. *)
Fixpoint merge {X} (m : list bool) (free fixed : list X) : list X :=
  match m with
  | [] => []
  | true :: r => match fixed with v :: vs => v :: merge r free vs | [] => [] end
  | false :: r => match free with v :: vs => v :: merge r vs fixed | [] => [] end
  end.

Notation nfree m := (count_occ bool_dec m false).
Notation nfix m := (count_occ bool_dec m true).

Lemma nfree_nfix m : nfree m + nfix m = length m.
Proof. induction m as [|[] m IH]; cbn; lia. Qed.

Lemma values_at_ge {X} i ks (vs : list X) :
  Forall (fun k => i < k) ks -> values_at i ks vs = [].
Proof.
  revert vs; induction ks as [|k ks IH]; intros [|v vs] H; cbn; auto.
  inversion H; subst. destruct (Nat.eqb_spec k i); [lia|auto].
Qed.

Lemma insert_from_skip {X} i arr k ks (v : X) vs :
  k < i -> insert_from i arr (k :: ks) (v :: vs) = insert_from i arr ks vs.
Proof.
  revert i; induction arr as [|a arr IH]; intros i H; cbn.
  - destruct (Nat.eqb_spec k i); [lia|reflexivity].
  - destruct (Nat.eqb_spec k i); [lia|]. now rewrite IH by lia.
Qed.

Lemma insert_from_here {X} i arr ks (v : X) vs :
  insert_from i arr (i :: ks) (v :: vs) = v :: insert_from i arr ks vs.
Proof.
  destruct arr as [|a arr]; cbn; rewrite Nat.eqb_refl; [reflexivity|].
  cbn. f_equal. f_equal. now rewrite insert_from_skip by lia.
Qed.

Lemma positions_from_ge k m : Forall (fun x => k <= x) (positions_from k m).
Proof.
  revert k; induction m as [|[] m IH]; intros k; cbn; auto.
  - constructor; [lia|]. eapply Forall_impl; [|apply IH]; cbn; lia.
  - eapply Forall_impl; [|apply IH]; cbn; lia.
Qed.

Lemma minus_arange_ge i m : forall j,
  Forall (fun x => i <= x) (minus_arange j (positions_from (i + j) m)).
Proof.
  revert i; induction m as [|[] m IH]; intros i j; cbn; auto.
  - constructor; [lia|]. replace (S (i + j)) with (i + S j) by lia. apply IH.
  - replace (S (i + j)) with (S i + j) by lia.
    eapply Forall_impl; [|apply IH]; cbn; lia.
Qed.

Lemma minus_arange_le i m : forall j,
  Forall (fun x => x <= i + nfree m) (minus_arange j (positions_from (i + j) m)).
Proof.
  revert i; induction m as [|[] m IH]; intros i j; cbn; auto.
  - constructor; [lia|]. replace (S (i + j)) with (i + S j) by lia. apply IH.
  - replace (S (i + j)) with (S i + j) by lia.
    eapply Forall_impl; [|apply IH]; cbn; lia.
Qed.

Lemma fix_map_length m : length (fix_map m) = nfix m.
Proof.
  unfold fix_map.
  assert (H : forall j l, length (minus_arange j l) = length l)
    by (intros j l; revert j; induction l; intros; cbn; auto).
  rewrite H. clear H. generalize 0; induction m as [|[] m IH]; intros k; cbn; auto.
Qed.

Lemma insert_merge {X} m : forall i j (free fixed : list X),
  length free = nfree m -> length fixed = nfix m ->
  insert_from i free (minus_arange j (positions_from (i + j) m)) fixed = merge m free fixed.
Proof.
  induction m as [|[] m IH]; intros i j free fixed H1 H2; cbn in *.
  - destruct free; [|discriminate]; destruct fixed; [reflexivity|discriminate].
  - destruct fixed as [|v vs]; [discriminate|]. cbn in H2.
    replace (i + j - j) with i by lia.
    rewrite insert_from_here. f_equal.
    replace (S (i + j)) with (i + S j) by lia. apply IH; lia.
  - destruct free as [|a r]; [discriminate|]. cbn in H1 |- *.
    replace (S (i + j)) with (S i + j) by lia.
    rewrite values_at_ge; cbn.
    + f_equal. apply IH; lia.
    + eapply Forall_impl; [|apply (minus_arange_ge (S i))]; cbn; lia.
Qed.

Lemma np_insert_merge {X} m (free fixed : list X) :
  length free = nfree m -> length fixed = nfix m ->
  np_insert free (fix_map m) fixed = Ok (merge m free fixed).
Proof.
  intros H1 H2. unfold np_insert.
  assert (E : existsb (fun k => length free <? k) (fix_map m) = false).
  { apply Bool.not_true_is_false. intros E. apply existsb_exists in E as (k & Hk & E).
    apply Nat.ltb_lt in E.
    pose proof (minus_arange_le 0 m 0) as F. cbn in F.
    unfold fix_map in Hk. rewrite Forall_forall in F. specialize (F k Hk). lia. }
  rewrite E, fix_map_length, H2, Nat.eqb_refl.
  f_equal. unfold fix_map. apply (insert_merge m 0 0); auto.
Qed.

Lemma merge_length {X} m : forall (free fixed : list X),
  length free = nfree m -> length fixed = nfix m -> length (merge m free fixed) = length m.
Proof.
  induction m as [|[] m IH]; intros free fixed H1 H2; cbn in *; auto.
  - destruct fixed; [discriminate|]; cbn in *; rewrite IH; lia.
  - destruct free; [discriminate|]; cbn in *; rewrite IH; lia.
Qed.

Lemma merge_free {X} m : forall (free fixed : list X),
  length free = nfree m -> length fixed = nfix m ->
  bool_index (merge m free fixed) (map negb m) = free.
Proof.
  induction m as [|[] m IH]; intros free fixed H1 H2; cbn in *.
  - destruct free; [reflexivity|discriminate].
  - destruct fixed; [discriminate|]; cbn in *. apply IH; lia.
  - destruct free; [discriminate|]; cbn in *. f_equal. apply IH; lia.
Qed.

Lemma merge_fixed {X} m : forall (free fixed : list X),
  length free = nfree m -> length fixed = nfix m ->
  bool_index (merge m free fixed) m = fixed.
Proof.
  induction m as [|[] m IH]; intros free fixed H1 H2; cbn in *.
  - destruct fixed; [reflexivity|discriminate].
  - destruct fixed; [discriminate|]; cbn in *. f_equal. apply IH; lia.
  - destruct free; [discriminate|]; cbn in *. apply IH; lia.
Qed.

Lemma merge_split {X} m : forall (vals : list X),
  length vals = length m ->
  merge m (bool_index vals (map negb m)) (bool_index vals m) = vals.
Proof.
  induction m as [|[] m IH]; intros [|v vals] H; cbn in *; try discriminate; auto;
  f_equal; apply IH; lia.
Qed.

Lemma bool_index_free_length {X} m : forall (vals : list X),
  length vals = length m -> length (bool_index vals (map negb m)) = nfree m.
Proof.
  induction m as [|[] m IH]; intros [|v vals] H; cbn in *; try discriminate; auto.
Qed.
Lemma bool_index_fixed_length {X} m : forall (vals : list X),
  length vals = length m -> length (bool_index vals m) = nfix m.
Proof.
  induction m as [|[] m IH]; intros [|v vals] H; cbn in *; try discriminate; auto.
Qed.

(** rank of a position among the free (non-masked) ones *)
Definition free_rank (m : list bool) (k : nat) : nat := nfree (firstn k m).
Definition fix_rank (m : list bool) (k : nat) : nat := nfix (firstn k m).

Lemma merge_nth {X} m : forall (free fixed : list X) k b,
  length free = nfree m -> length fixed = nfix m ->
  nth_error m k = Some b ->
  nth_error (merge m free fixed) k =
  if b then nth_error fixed (fix_rank m k) else nth_error free (free_rank m k).
Proof.
  induction m as [|[] m IH]; intros free fixed [|k] b H1 H2 Hk; cbn in *; try discriminate.
  - injection Hk as <-. destruct fixed; [discriminate|]; reflexivity.
  - destruct fixed as [|v fixed]; [discriminate|]. cbn in *. rewrite (IH _ _ _ b) by (auto; lia).
    destruct b; reflexivity.
  - injection Hk as <-. destruct free; [discriminate|]; reflexivity.
  - destruct free as [|v free]; [discriminate|]. cbn in *. rewrite (IH _ _ _ b) by (auto; lia).
    destruct b; reflexivity.
Qed.

Lemma shape_eqb_refl s : shape_eqb s s = true.
Proof. induction s; cbn; rewrite ?Nat.eqb_refl; auto. Qed.

Lemma shape_eqb_eq s t : shape_eqb s t = true -> s = t.
Proof.
  revert t; induction s as [|x s IH]; intros [|y t] H; cbn in *; try discriminate; auto.
  apply andb_prop in H as [H1 H2]. apply Nat.eqb_eq in H1. f_equal; auto.
Qed.

Definition with_vals (p : param A) (l : list A) : param A := mkParam (p_shape p) l (p_mask p).

(** one parameter's worth of [_reshape_array] *)
Lemma rebuild_one (p : param A) l :
  param_wf p -> length l = prodn (p_shape p) ->
  (let! data := np_reshape l (p_shape p) in
   Param_init data (Some (mkNd (p_shape p) (p_mask p)))) = Ok (with_vals p l).
Proof.
  intros Hw H. unfold np_reshape. rewrite H, Nat.eqb_refl. cbn.
  rewrite shape_eqb_refl. reflexivity.
Qed.

Lemma p_counts (p : param A) : param_wf p -> p_count p + p_nfixed p = prodn (p_shape p).
Proof. intros [_ H]. unfold p_count, p_nfixed. rewrite nfree_nfix; auto. Qed.

Lemma slice_length {X} a b (l : list X) : b <= length l -> length (slice a b l) = b - a.
Proof. intros H. unfold slice. rewrite firstn_length, skipn_length. lia. Qed.

Definition total_free (ps : list (param A)) := sumn (map p_count ps).
Definition total_fixed (ps : list (param A)) := sumn (map p_nfixed ps).

(** Specification-level rebuild: cut the flat vectors and merge. *)
Fixpoint rebuild (flat fixed : list A) (ps : list (param A)) : list (param A) :=
  match ps with
  | [] => []
  | p :: r => with_vals p (merge (p_mask p) (firstn (p_count p) flat) (firstn (p_nfixed p) fixed))
              :: rebuild (skipn (p_count p) flat) (skipn (p_nfixed p) fixed) r
  end.

Lemma total_free_cons p ps : total_free (p :: ps) = p_count p + total_free ps.
Proof. reflexivity. Qed.
Lemma total_fixed_cons p ps : total_fixed (p :: ps) = p_nfixed p + total_fixed ps.
Proof. reflexivity. Qed.

Lemma skipn_add {X} a b (l : list X) : skipn a (skipn b l) = skipn (b + a) l.
Proof. revert l; induction b as [|b IH]; intros [|x l]; cbn; auto. now rewrite skipn_nil. Qed.

Lemma reshape_vals_ok ps : forall flat vals s0 f0,
  Forall param_wf ps ->
  s0 + total_free ps <= length flat -> f0 + total_fixed ps <= length vals ->
  reshape_vals flat vals s0 f0 ps = Ok (rebuild (skipn s0 flat) (skipn f0 vals) ps).
Proof.
  induction ps as [|p ps IH]; intros flat vals s0 f0 Hw Hs Hf; [reflexivity|].
  rewrite total_free_cons in Hs; rewrite total_fixed_cons in Hf. cbn [reshape_vals rebuild].
  inversion Hw as [|? ? Hp Hps]; subst.
  assert (L1 : length (slice s0 (s0 + p_count p) flat) = p_count p) by (rewrite slice_length; lia).
  assert (L2 : length (slice f0 (f0 + p_nfixed p) vals) = p_nfixed p) by (rewrite slice_length; lia).
  rewrite np_insert_merge by assumption. cbn.
  assert (L3 : length (merge (p_mask p) (slice s0 (s0 + p_count p) flat)
                             (slice f0 (f0 + p_nfixed p) vals)) = prodn (p_shape p)).
  { rewrite merge_length by assumption. apply Hp. }
  pose proof (rebuild_one p _ Hp L3) as R. unfold rbind in R.
  destruct (np_reshape _ (p_shape p)) as [data|]; [|discriminate]. cbn. cbn in R. rewrite R. cbn.
  rewrite IH by (auto; lia). cbn.
  rewrite !skipn_add. unfold slice.
  replace (s0 + p_count p - s0) with (p_count p) by lia.
  replace (f0 + p_nfixed p - f0) with (p_nfixed p) by lia. reflexivity.
Qed.

Lemma compressed_length p : param_wf p -> length (@compressed A p) = p_count p.
Proof. intros [H1 H2]. apply bool_index_free_length. congruence. Qed.
Lemma fixed_length p : param_wf p -> length (@fixed_vals A p) = p_nfixed p.
Proof. intros [H1 H2]. apply bool_index_fixed_length. congruence. Qed.

Lemma concat_fixed_length ps : Forall param_wf ps ->
  length (concat (map (@fixed_vals A) ps)) = total_fixed ps.
Proof.
  unfold total_fixed.
  induction 1 as [|p ps Hp Hps IH]; cbn; auto. rewrite app_length, IH, fixed_length; auto.
Qed.
Lemma concat_compressed_length ps : Forall param_wf ps ->
  length (concat (map (@compressed A) ps)) = total_free ps.
Proof.
  unfold total_free.
  induction 1 as [|p ps Hp Hps IH]; cbn; auto. rewrite app_length, IH, compressed_length; auto.
Qed.

Definition free_concat (ps : list (param A)) : list A := concat (map compressed ps).

Lemma np_concatenate_map {X Y} (f : X -> list Y) l : l <> [] ->
  np_concatenate (map f l) = Ok (concat (map f l)).
Proof. destruct l; [congruence|reflexivity]. Qed.

Lemma reshape_params_rebuild ps flat :
  ps <> [] -> Forall param_wf ps -> total_free ps <= length flat ->
  reshape_params ps flat = Ok (rebuild flat (concat (map fixed_vals ps)) ps).
Proof.
  intros Hne Hw H. unfold reshape_params. rewrite np_concatenate_map by auto. cbn [rbind].
  unfold reshape_array. rewrite reshape_vals_ok; auto; cbn. rewrite concat_fixed_length; auto.
Qed.

Lemma firstn_app_len {X} n (a b : list X) : length a = n -> firstn n (a ++ b) = a.
Proof. intros <-. rewrite firstn_app, Nat.sub_diag, firstn_all. cbn. apply app_nil_r. Qed.
Lemma skipn_app_len {X} n (a b : list X) : length a = n -> skipn n (a ++ b) = b.
Proof. intros <-. rewrite skipn_app, Nat.sub_diag, skipn_all. reflexivity. Qed.

Lemma rebuild_roundtrip (ps : list (param A)) : Forall param_wf ps ->
  rebuild (free_concat ps) (concat (map fixed_vals ps)) ps = ps.
Proof.
  unfold free_concat.
  induction 1 as [|p ps Hp Hps IH]; cbn; auto.
  rewrite !firstn_app_len, !skipn_app_len by (auto using compressed_length, fixed_length).
  rewrite IH. f_equal. unfold with_vals, compressed, fixed_vals.
  rewrite merge_split by (destruct Hp; congruence). destruct p; reflexivity.
Qed.

(** C01 *)
Lemma reshape_params_roundtrip (ps : list (param A)) : ps <> [] -> Forall param_wf ps ->
  reshape_params ps (free_concat ps) = Ok ps.
Proof.
  intros Hne Hw. rewrite reshape_params_rebuild; auto.
  - f_equal. apply rebuild_roundtrip; auto.
  - unfold free_concat. rewrite concat_compressed_length; auto.
Qed.

Lemma rebuild_spec (ps : list (param A)) : forall flat, Forall param_wf ps -> total_free ps <= length flat ->
  let qs := rebuild flat (concat (map fixed_vals ps)) ps in
  map p_shape qs = map p_shape ps /\ map p_mask qs = map p_mask ps /\
  map fixed_vals qs = map fixed_vals ps /\ free_concat qs = firstn (total_free ps) flat /\ Forall param_wf qs.
Proof.
  unfold free_concat.
  induction ps as [|p ps IH]; intros flat Hw H; cbn [rebuild map concat].
  - repeat split; auto.
  - inversion Hw as [|? ? Hp Hps]; subst. rewrite total_free_cons in H.
    rewrite firstn_app_len, skipn_app_len by (auto using fixed_length).
    destruct (IH (skipn (p_count p) flat) Hps) as (E1 & E2 & E3 & E4 & E5).
    { rewrite skipn_length; lia. }
    rewrite E1, E2, E3, E4.
    assert (L1 : length (firstn (p_count p) flat) = p_count p) by (rewrite firstn_length; lia).
    assert (L2 := fixed_length p Hp).
    repeat split; auto.
    + f_equal. unfold fixed_vals at 1. cbn. apply merge_fixed; auto.
    + unfold compressed at 1. cbn [p_vals p_mask with_vals]. rewrite merge_free by auto. rewrite total_free_cons.
      clear. revert flat. induction (p_count p) as [|n IH]; intros [|x l]; cbn; auto.
      * now rewrite firstn_nil.
      * f_equal. apply IH.
    + constructor; auto. split; cbn; [|apply Hp]. rewrite merge_length by auto. apply Hp.
Qed.

(** C02 *)
Lemma reshape_params_spec (ps : list (param A)) flat :
  ps <> [] -> Forall param_wf ps -> total_free ps <= length flat ->
  exists qs, reshape_params ps flat = Ok qs /\
    map p_shape qs = map p_shape ps /\ map p_mask qs = map p_mask ps /\
    map fixed_vals qs = map fixed_vals ps /\ free_concat qs = firstn (total_free ps) flat /\ Forall param_wf qs.
Proof.
  intros Hne Hw H. eexists. split; [apply reshape_params_rebuild; auto|].
  apply rebuild_spec; auto.
Qed.

(** Scalar filler *)
Lemma reshape_scalar_nth ps : forall flat v s0,
  Forall param_wf ps -> s0 + total_free ps <= length flat ->
  exists qs, reshape_scalar flat v s0 ps = Ok qs /\
    map p_shape qs = map p_shape ps /\ map p_mask qs = map p_mask ps /\
    forall i p q k b, nth_error ps i = Some p -> nth_error qs i = Some q ->
      nth_error (p_mask p) k = Some b ->
      nth_error (p_vals q) k =
        if b then Some v
        else nth_error flat (s0 + total_free (firstn i ps) + free_rank (p_mask p) k).
Proof.
  induction ps as [|p ps IH]; intros flat v s0 Hw Hs; cbn [reshape_scalar].
  - exists []; repeat split; auto. intros [|i] p q k b Hi; discriminate.
  - inversion Hw as [|? ? Hp Hps]; subst. rewrite total_free_cons in Hs.
    assert (L1 : length (slice s0 (s0 + p_count p) flat) = p_count p) by (rewrite slice_length; lia).
    assert (L2 : length (repeat v (length (fix_map (p_mask p)))) = p_nfixed p)
      by (rewrite repeat_length; apply fix_map_length).
    unfold np_insert_scalar. rewrite np_insert_merge by assumption. cbn.
    assert (L3 : length (merge (p_mask p) (slice s0 (s0 + p_count p) flat)
                               (repeat v (length (fix_map (p_mask p))))) = prodn (p_shape p)).
    { rewrite merge_length by assumption. apply Hp. }
    pose proof (rebuild_one p _ Hp L3) as R. unfold rbind in R.
    destruct (np_reshape _ (p_shape p)) as [data|]; [|discriminate]. cbn. cbn in R. rewrite R. cbn.
    destruct (IH flat v (s0 + p_count p) Hps) as (qs & E & E1 & E2 & E3); [lia|].
    rewrite E. cbn. eexists; split; [reflexivity|]. cbn. rewrite E1, E2.
    repeat split; auto.
    intros [|i] p' q k b Hi Hq Hk; cbn [nth_error firstn] in *.
    + injection Hi as <-; injection Hq as <-. cbn [p_vals with_vals].
      rewrite (merge_nth _ _ _ _ b) by assumption.
      assert (Hlt : k < length (p_mask p)) by (apply nth_error_Some; congruence).
      destruct b.
      * rewrite (nth_error_nth' _ v).
        -- f_equal. apply nth_repeat.
        -- rewrite repeat_length, fix_map_length. unfold fix_rank.
           clear -Hk. revert k Hk. generalize (p_mask p). induction l as [|[] l IH]; intros [|k] H; cbn in *; try discriminate; try lia.
           ++ specialize (IH _ H); lia.
           ++ specialize (IH _ H); lia.
      * unfold slice. replace (s0 + p_count p - s0) with (p_count p) by lia.
        change (total_free []) with 0. rewrite Nat.add_0_r.
        assert (R2 : free_rank (p_mask p) k < p_count p).
        { unfold free_rank, p_count. clear -Hk. revert k Hk. generalize (p_mask p).
          induction l as [|[] l IH]; intros [|k] H; cbn in *; try discriminate; try lia;
          specialize (IH _ H); lia. }
        clear -R2. revert R2. generalize (free_rank (p_mask p) k) as r. generalize (p_count p) as c.
        intros c r Hr.
        assert (F : forall (l : list A) c r, r < c -> nth_error (firstn c l) r = nth_error l r).
        { induction l as [|x l IHl]; intros [|c'] [|r'] H; cbn; auto; try lia. apply IHl; lia. }
        rewrite F by auto.
        assert (G : forall (l : list A) s r, nth_error (skipn s l) r = nth_error l (s + r)).
        { induction l as [|x l IHl]; intros [|s] r'; cbn; auto. now destruct r'. }
        apply G.
    + rewrite (E3 i p' q k b Hi Hq Hk). destruct b; auto. f_equal. rewrite total_free_cons. lia.
Qed.

Lemma nth_error_firstn {X} (l : list X) c r :
  r < c -> nth_error (firstn c l) r = nth_error l r.
Proof.
  revert c r; induction l as [|x l IH]; intros [|c] [|r] H; cbn; auto; try lia. apply IH; lia.
Qed.
Lemma nth_error_skipn {X} (l : list X) s r : nth_error (skipn s l) r = nth_error l (s + r).
Proof. revert s; induction l as [|x l IH]; intros [|s]; cbn; auto. now destruct r. Qed.
Lemma nth_error_slice {X} (l : list X) a b r :
  r < b - a -> nth_error (slice a b l) r = nth_error l (a + r).
Proof. intros H. unfold slice. rewrite nth_error_firstn by lia. apply nth_error_skipn. Qed.

Lemma free_rank_lt m k : nth_error m k = Some false -> free_rank m k < nfree m.
Proof.
  unfold free_rank. revert k; induction m as [|[] m IH]; intros [|k] H; cbn in *; try discriminate; try lia.
  - apply IH; auto.
  - specialize (IH _ H); lia.
Qed.
Lemma fix_rank_lt m k : nth_error m k = Some true -> fix_rank m k < nfix m.
Proof.
  unfold fix_rank. revert k; induction m as [|[] m IH]; intros [|k] H; cbn in *; try discriminate; try lia.
  - specialize (IH _ H); lia.
  - apply IH; auto.
Qed.

Lemma nth_error_repeat' {X} (v : X) n k : k < n -> nth_error (repeat v n) k = Some v.
Proof. revert k; induction n as [|n IH]; intros [|k] H; cbn; auto; try lia. apply IH; lia. Qed.

Lemma merge_const_nth {X} m (free : list X) v k b :
  length free = nfree m -> nth_error m k = Some b ->
  nth_error (merge m free (repeat v (nfix m))) k =
  if b then Some v else nth_error free (free_rank m k).
Proof.
  intros H1 Hk. rewrite (merge_nth m free _ k b) by (rewrite ?repeat_length; auto).
  destruct b; auto. apply nth_error_repeat'. now apply fix_rank_lt.
Qed.

Lemma Forall_slice {X} (P : X -> Prop) a b l : Forall P l -> Forall P (slice a b l).
Proof.
  intros H. unfold slice. rewrite Forall_forall in *. intros x Hx. apply H.
  rewrite <- (firstn_skipn a l). apply in_or_app. right.
  rewrite <- (firstn_skipn (b - a) (skipn a l)). apply in_or_app. now left.
Qed.

Lemma merge_Forall {X} (P : X -> Prop) m : forall free fixed,
  Forall P free -> Forall P fixed -> Forall P (merge m free fixed).
Proof.
  induction m as [|[] m IH]; intros free fixed H1 H2; cbn; auto.
  - inversion H2; subst; auto.
  - inversion H1; subst; auto.
Qed.

Lemma concat_uniform_nth {X} c : forall (rows : list (list X)) a b,
  Forall (fun r => length r = c) rows -> b < c ->
  nth_error (concat rows) (a * c + b) =
  match nth_error rows a with Some row => nth_error row b | None => None end.
Proof.
  induction rows as [|r rows IH]; intros a b Hw Hb; cbn.
  - destruct (a * c + b), a; reflexivity.
  - inversion Hw; subst. destruct a as [|a]; cbn.
    + now rewrite nth_error_app1 by lia.
    + rewrite nth_error_app2 by lia. rewrite <- IH by auto. f_equal. lia.
Qed.

Lemma concat_uniform_length {X} c (rows : list (list X)) :
  Forall (fun r => length r = c) rows -> length (concat rows) = length rows * c.
Proof. induction 1 as [|r rows Hr Hrs IH]; cbn; auto. rewrite app_length, Hr, IH. lia. Qed.

Lemma prodn_app a b : prodn (a ++ b) = prodn a * prodn b.
Proof.
  induction a as [|x a IH]; [change (prodn b = 1 * prodn b); lia|]. change (x * prodn (a ++ b) = x * prodn a * prodn b).
  rewrite IH. lia.
Qed.

Lemma reshape_block_spec rows v si sj (pi pj : param A) n :
  param_wf pi -> param_wf pj -> length rows = n -> Forall (fun r => length r = n) rows ->
  si + p_count pi <= n -> sj + p_count pj <= n ->
  exists blk, reshape_block rows v si (si + p_count pi) sj (sj + p_count pj) pi pj = Ok blk /\
    nd_shape blk = p_shape pi ++ p_shape pj /\ nd_wf blk /\
    forall a b ma mb, nth_error (p_mask pi) a = Some ma -> nth_error (p_mask pj) b = Some mb ->
      nth_error (nd_flat blk) (a * prodn (p_shape pj) + b) =
      if ma || mb then Some v
      else match nth_error rows (si + free_rank (p_mask pi) a) with
           | Some row => nth_error row (sj + free_rank (p_mask pj) b)
           | None => None end.
Proof.
  intros [_ Wi] [_ Wj] Hn Hr Hi Hj. unfold reshape_block.
  set (block := map (slice sj (sj + p_count pj)) (slice si (si + p_count pi) rows)).
  assert (Lb : length block = p_count pi).
  { unfold block. rewrite map_length, slice_length; lia. }
  assert (Fb : Forall (fun r => length r = p_count pj) block).
  { unfold block. apply Forall_map. apply Forall_slice. eapply Forall_impl; [|exact Hr].
    cbn. intros r E. rewrite slice_length; lia. }
  unfold insert_rows, np_insert_scalar.
  rewrite np_insert_merge; [|exact Lb|rewrite repeat_length; apply fix_map_length]. cbn [rbind].
  replace (sj + p_count pj - sj) with (p_count pj) by lia. rewrite fix_map_length.
  set (b1 := merge (p_mask pi) block (repeat (repeat v (p_count pj)) (nfix (p_mask pi)))).
  assert (Fb1 : Forall (fun r => length r = p_count pj) b1).
  { apply merge_Forall; auto. apply Forall_forall. intros x Hx. apply repeat_spec in Hx as ->.
    apply repeat_length. }
  assert (Lb1 : length b1 = prodn (p_shape pi)).
  { unfold b1. rewrite merge_length; auto. rewrite repeat_length; auto. }
  unfold insert_cols.
  rewrite (rmapM_all_ok _ (fun row => merge (p_mask pj) row (repeat v (nfix (p_mask pj))))).
  2:{ intros row Hrow. rewrite Forall_forall in Fb1. unfold np_insert_scalar.
      rewrite np_insert_merge.
      - now rewrite fix_map_length.
      - apply Fb1; auto.
      - rewrite repeat_length. apply fix_map_length. }
  cbn [rbind].
  set (b2 := map _ b1).
  assert (Fb2 : Forall (fun r => length r = prodn (p_shape pj)) b2).
  { unfold b2. apply Forall_map. eapply Forall_impl; [|exact Fb1]. cbn. intros r E.
    rewrite merge_length; auto. now rewrite repeat_length. }
  assert (Lc : length (concat b2) = prodn (p_shape pi ++ p_shape pj)).
  { rewrite (concat_uniform_length _ _ Fb2), prodn_app. unfold b2. now rewrite map_length, Lb1. }
  unfold np_reshape. rewrite Lc, Nat.eqb_refl. eexists; split; [reflexivity|]. cbn.
  split; [reflexivity|]. split; [exact Lc|].
  intros a b ma mb Ha Hb.
  assert (Hbl : b < prodn (p_shape pj)) by (rewrite <- Wj; apply nth_error_Some; congruence).
  rewrite (concat_uniform_nth _ _ a b Fb2 Hbl). unfold b2. rewrite nth_error_map.
  unfold b1 at 1. rewrite (merge_const_nth _ _ _ a ma Lb Ha).
  destruct ma; cbn [orb option_map].
  - rewrite (merge_const_nth _ _ _ b mb); [|apply repeat_length|exact Hb].
    destruct mb; auto. apply nth_error_repeat'. now apply free_rank_lt.
  - pose proof (free_rank_lt _ _ Ha) as Ra. unfold block at 1. rewrite nth_error_map.
    rewrite nth_error_slice by (fold (p_count pi) in Ra; unfold p_count in *; lia).
    destruct (nth_error rows (si + free_rank (p_mask pi) a)) as [row|] eqn:E.
    + cbn [option_map].
      assert (Lrow : length row = n) by (rewrite Forall_forall in Hr; apply Hr; eapply nth_error_In; eauto).
      rewrite (merge_const_nth _ _ _ b mb); [|rewrite slice_length; unfold p_count in *; lia|exact Hb].
      destruct mb; auto. pose proof (free_rank_lt _ _ Hb) as Rb.
      apply nth_error_slice. unfold p_count in *; lia.
    + exfalso. apply nth_error_None in E. unfold p_count in *. lia.
Qed.

Lemma offsets_nth ps : forall s i p, nth_error ps i = Some p ->
  nth_error (offsets s ps) i = Some (s + total_free (firstn i ps), p).
Proof.
  induction ps as [|q ps IH]; intros s [|i] p H; cbn [nth_error offsets firstn] in *; try discriminate.
  - injection H as <-. cbn. now rewrite Nat.add_0_r.
  - rewrite (IH _ _ _ H). rewrite total_free_cons. do 2 f_equal. lia.
Qed.
Lemma offsets_length (ps : list (param A)) : forall s, length (offsets s ps) = length ps.
Proof. induction ps; intros; cbn; auto. Qed.

Lemma offsets_in ps : forall s sp, In sp (offsets s ps) ->
  In (snd sp) ps /\ fst sp + p_count (snd sp) <= s + total_free ps.
Proof.
  induction ps as [|q ps IH]; intros s sp H; cbn [offsets In] in *; [tauto|].
  rewrite total_free_cons. destruct H as [<-|H]; cbn [fst snd].
  - split; [auto|lia].
  - destruct (IH _ _ H) as [H1 H2]. split; [auto|lia].
Qed.

Lemma rmapM_exists {X Y} (f : X -> res Y) l :
  (forall x, In x l -> exists y, f x = Ok y) -> exists r, rmapM f l = Ok r.
Proof.
  induction l as [|x l IH]; intros H; cbn; [eauto|].
  destruct (H x) as [y Hy]; [cbn; auto|]. rewrite Hy. cbn.
  destruct IH as [r Hr]; [intros; apply H; cbn; auto|]. rewrite Hr. cbn. eauto.
Qed.

Lemma rmapM_nth {X Y} (f : X -> res Y) l : forall r i x,
  rmapM f l = Ok r -> nth_error l i = Some x ->
  exists y, f x = Ok y /\ nth_error r i = Some y.
Proof.
  induction l as [|z l IH]; intros r [|i] x H Hi; cbn in *; try discriminate;
  destruct (f z) as [y|] eqn:E; cbn in H; try discriminate;
  destruct (rmapM f l) as [ys|] eqn:E2; cbn in H; try discriminate;
  injection H as <-.
  - injection Hi as <-. eauto.
  - cbn. eapply IH; eauto.
Qed.

(** C03 *)
Lemma reshape_matrix_spec (ps : list (param A)) (m : mat A) v n :
  Forall param_wf ps -> m_shape m = [n; n] -> length (m_rows m) = n ->
  Forall (fun r => length r = n) (m_rows m) -> total_free ps <= n ->
  exists blocks, reshape_matrix ps m v = Ok blocks /\ length blocks = length ps /\
   (forall row, In row blocks -> length row = length ps) /\
   forall i j pi pj, nth_error ps i = Some pi -> nth_error ps j = Some pj ->
     exists row blk, nth_error blocks i = Some row /\ nth_error row j = Some blk /\
       nd_shape blk = p_shape pi ++ p_shape pj /\ nd_wf blk /\
       forall a b ma mb, nth_error (p_mask pi) a = Some ma -> nth_error (p_mask pj) b = Some mb ->
         nth_error (nd_flat blk) (a * prodn (p_shape pj) + b) =
         if ma || mb then Some v
         else match nth_error (m_rows m) (total_free (firstn i ps) + free_rank (p_mask pi) a) with
              | Some r => nth_error r (total_free (firstn j ps) + free_rank (p_mask pj) b)
              | None => None end.
Proof.
  intros Hw Hs Hl Hr Hn. unfold reshape_matrix. rewrite Hs, Nat.eqb_refl. cbn [negb].
  assert (B : forall si pi sj pj, In (si, pi) (offsets 0 ps) -> In (sj, pj) (offsets 0 ps) ->
    param_wf pi /\ param_wf pj /\ si + p_count pi <= n /\ sj + p_count pj <= n).
  { intros si pi sj pj H1 H2. apply offsets_in in H1 as [H1 H1'], H2 as [H2 H2'].
    cbn [fst snd] in *. rewrite Forall_forall in Hw. repeat split; try (apply Hw; auto); lia. }
  set (f := fun '(si, pi) => _).
  destruct (rmapM_exists f (offsets 0 ps)) as [blocks Hb].
  { intros [si pi] Hi. unfold f. apply rmapM_exists. intros [sj pj] Hj.
    destruct (B _ _ _ _ Hi Hj) as (? & ? & ? & ?).
    destruct (reshape_block_spec (m_rows m) v si sj pi pj n) as (blk & E & _); eauto. }
  exists blocks. split; [exact Hb|]. split; [|split].
  - apply rmapM_ok_length in Hb. now rewrite offsets_length in Hb.
  - intros row Hrow. apply In_nth_error in Hrow as [i Hi].
    assert (Hlt : i < length (offsets 0 ps)).
    { rewrite <- (rmapM_ok_length _ _ _ Hb). apply nth_error_Some. congruence. }
    destruct (nth_error (offsets 0 ps) i) as [[si pi]|] eqn:E; [|apply nth_error_None in E; lia].
    destruct (rmapM_nth _ _ _ _ _ Hb E) as (y & Hy & Hy'). rewrite Hi in Hy'. injection Hy' as <-.
    unfold f in Hy. apply rmapM_ok_length in Hy. now rewrite offsets_length in Hy.
  - intros i j pi pj Hi Hj.
    pose proof (offsets_nth ps 0 i pi Hi) as Oi. pose proof (offsets_nth ps 0 j pj Hj) as Oj.
    cbn [plus] in Oi, Oj.
    destruct (rmapM_nth _ _ _ _ _ Hb Oi) as (row & Er & Erow). unfold f in Er.
    destruct (rmapM_nth _ _ _ _ _ Er Oj) as (blk & Ebl & Eblk). cbn beta iota in Ebl.
    exists row, blk. split; auto. split; auto.
    destruct (B _ _ _ _ (nth_error_In _ _ Oi) (nth_error_In _ _ Oj)) as (? & ? & ? & ?).
    destruct (reshape_block_spec (m_rows m) v (total_free (firstn i ps)) (total_free (firstn j ps)) pi pj n)
      as (blk' & E & S1 & S2 & S3); auto.
    rewrite E in Ebl. injection Ebl as ->. auto.
Qed.

Lemma reshape_matrix_bad_shape (ps : list (param A)) (m : mat A) v :
  (forall n, m_shape m <> [n; n]) -> reshape_matrix ps m v = Raise ValueError.
Proof.
  intros H. unfold reshape_matrix. destruct (m_shape m) as [|r [|c [|d s]]]; auto.
  destruct (Nat.eqb_spec r c) as [->|]; cbn; auto. now destruct (H c).
Qed.

Lemma diag_of_length (m : mat A) n :
  length (m_rows m) = n -> Forall (fun r => length r = n) (m_rows m) -> length (diag_of m) = n.
Proof.
  intros Hl Hr. unfold diag_of.
  assert (G : forall rows s, Forall (fun r => length r = n) rows -> s + length rows <= n ->
    length (concat (map (fun '(k, row) => match @nth_error A row k with Some x => [x] | None => [] end)
              (combine (seq s (length rows)) rows))) = length rows).
  { induction rows as [|r rows IH]; intros s F H; cbn in *; auto. inversion F; subst.
    rewrite app_length, IH by (auto; lia).
    destruct (nth_error r s) eqn:E; cbn; auto. apply nth_error_None in E; lia. }
  rewrite G; auto. lia.
Qed.

Lemma diag_of_nth (m : mat A) n k :
  length (m_rows m) = n -> Forall (fun r => length r = n) (m_rows m) -> k < n ->
  nth_error (diag_of m) k = match nth_error (m_rows m) k with Some r => nth_error r k | None => None end.
Proof.
  intros Hl Hr Hk. unfold diag_of.
  assert (G : forall rows s k, Forall (fun r => length r = n) rows -> s + length rows <= n ->
    nth_error (concat (map (fun '(k, row) => match @nth_error A row k with Some x => [x] | None => [] end)
              (combine (seq s (length rows)) rows))) k =
    match nth_error rows k with Some r => nth_error r (s + k) | None => None end).
  { clear. induction rows as [|r rows IH]; intros s k F H; cbn in *.
    - destruct k; auto.
    - inversion F; subst.
      destruct (nth_error r s) eqn:E; [|apply nth_error_None in E; lia].
      destruct k as [|k]; cbn; [now rewrite Nat.add_0_r|].
      rewrite IH by (auto; lia). now rewrite Nat.add_succ_r. }
  rewrite G; auto; lia.
Qed.

(** C15 *)
Lemma std_error_spec inv neg sqrt nan (ps : list (param A)) c H iv :
  Forall param_wf ps -> inv H = Ok iv ->
  let n := total_free ps + S c in
  length (m_rows iv) = n -> Forall (fun r => length r = n) (m_rows iv) ->
  exists out, std_error inv neg sqrt nan ps (S c) H = Ok out /\
    length out = length ps /\
    forall i p, nth_error ps i = Some p -> exists vals,
      nth_error out i = Some (p_shape p, vals, p_mask p) /\
      forall k b, nth_error (p_mask p) k = Some b ->
        nth_error vals k =
        if b then Some nan
        else let r := total_free (firstn i ps) + free_rank (p_mask p) k in
             match nth_error (m_rows iv) r with
             | Some row => option_map (fun x => sqrt (neg x)) (nth_error row r)
             | None => None end.
Proof.
  intros Hw Hi n Hl Hr. unfold std_error. rewrite Hi. cbn [rbind slice_neg].
  assert (Hl' : length (m_rows (map_mat neg iv)) = n) by (cbn; now rewrite map_length).
  assert (Hr' : Forall (fun r => length r = n) (m_rows (map_mat neg iv))).
  { cbn. apply Forall_map. eapply Forall_impl; [|exact Hr]. cbn. intros r E. now rewrite map_length. }
  pose proof (diag_of_length _ _ Hl' Hr') as Ld. rewrite Ld.
  set (d := firstn (n - S c) (diag_of (map_mat neg iv))).
  assert (Ldd : length d = total_free ps) by (unfold d; rewrite firstn_length, Ld; unfold n; lia).
  unfold reshape_array.
  destruct (reshape_scalar_nth ps (map sqrt d) nan 0 Hw) as (qs & E & E1 & E2 & E3).
  { rewrite map_length; lia. }
  rewrite E. cbn [rbind]. eexists; split; [reflexivity|].
  assert (Lq : length qs = length ps) by (rewrite <- (map_length p_shape qs), E1, map_length; auto).
  split; [now rewrite map_length|].
  intros i p Hp.
  assert (Hq : exists q, nth_error qs i = Some q).
  { destruct (nth_error qs i) eqn:X; eauto. apply nth_error_None in X.
    assert (i < length ps) by (apply nth_error_Some; congruence). lia. }
  destruct Hq as [q Hq]. exists (p_vals q). split.
  - rewrite nth_error_map, Hq. cbn.
    assert (p_shape q = p_shape p).
    { pose proof (f_equal (fun l => nth_error l i) E1) as X. cbn in X.
      rewrite !nth_error_map, Hq, Hp in X. cbn in X. congruence. }
    assert (p_mask q = p_mask p).
    { pose proof (f_equal (fun l => nth_error l i) E2) as X. cbn in X.
      rewrite !nth_error_map, Hq, Hp in X. cbn in X. congruence. }
    congruence.
  - intros k b Hk. rewrite (E3 i p q k b Hp Hq Hk). destruct b; auto. cbn [plus].
    set (r := total_free (firstn i ps) + free_rank (p_mask p) k). cbv zeta.
    assert (Rr : r < total_free ps).
    { unfold r. pose proof (free_rank_lt _ _ Hk) as R. clear -Hp R. fold (p_count p) in R.
      revert i p Hp R. induction ps as [|q ps IH]; intros [|i] p Hp R; cbn [nth_error firstn] in *; try discriminate.
      - injection Hp as ->. rewrite total_free_cons. cbn. unfold p_count in *. lia.
      - rewrite !total_free_cons. specialize (IH _ _ Hp R). lia. }
    rewrite nth_error_map. unfold d. rewrite nth_error_firstn by (unfold n; lia).
    rewrite (diag_of_nth _ n) by (auto; unfold n; lia).
    cbn [m_rows map_mat]. rewrite nth_error_map.
    destruct (nth_error (m_rows iv) r) as [row|] eqn:Er; cbn [option_map]; auto.
    rewrite nth_error_map. destruct (nth_error row r); reflexivity.
Qed.

Lemma std_error_no_constraint inv neg sqrt nan (ps : list (param A)) H iv :
  inv H = Ok iv -> std_error inv neg sqrt nan ps 0 H = Raise TypeError.
Proof. intros Hi. unfold std_error. rewrite Hi. reflexivity. Qed.

(** C16 *)
Lemma dof_counts (ps : list (param A)) extra c : Forall param_wf ps ->
  dof ps extra c = (Z.of_nat (total_free ps) + Z.of_nat (total_fixed ps) + extra - Z.of_nat c)%Z.
Proof.
  intros Hw. unfold dof.
  assert (E : sumn (map (fun p => length (p_vals p)) ps) = total_free ps + total_fixed ps).
  { induction Hw as [|p ps Hp Hps IH]; [reflexivity|].
    rewrite total_free_cons, total_fixed_cons.
    change (sumn (map (fun p0 => length (p_vals p0)) (p :: ps)))
      with (length (p_vals p) + sumn (map (fun p0 => length (p_vals p0)) ps)).
    rewrite IH. pose proof (p_counts p Hp). destruct Hp as [-> _]. lia. }
  rewrite E. lia.
Qed.

(** Any successful rebuild had a long enough flat vector. *)
Lemma values_at_length {X} i idx (vals : list X) : length vals = length idx ->
  length (values_at i idx vals) = count_occ Nat.eq_dec idx i.
Proof.
  revert vals; induction idx as [|k ks IH]; intros [|v vs] H; cbn in *; try discriminate; auto.
  destruct (Nat.eqb_spec k i) as [->|N]; destruct (Nat.eq_dec _ _); cbn; try congruence;
  rewrite IH; lia.
Qed.

Lemma insert_from_length' {X} arr : forall i idx (vals : list X), length vals = length idx ->
  length (insert_from i arr idx vals) =
  length arr + sumn (map (count_occ Nat.eq_dec idx) (seq i (S (length arr)))).
Proof.
  induction arr as [|a arr IH]; intros i idx vals H; cbn [insert_from length].
  - rewrite values_at_length by auto. cbn. lia.
  - rewrite app_length. cbn [length]. rewrite IH, values_at_length by auto.
    change (seq i (S (S (length arr)))) with (i :: seq (S i) (S (length arr))).
    change (sumn (map ?f (?x :: ?l))) with (f x + sumn (map f l)). lia.
Qed.

Lemma sumn_app a b : sumn (a ++ b) = sumn a + sumn b.
Proof. induction a as [|x a IH]; cbn; auto. unfold sumn in *. cbn. lia. Qed.

Lemma sumn_zero {X} (f : X -> nat) l : (forall x, In x l -> f x = 0) -> sumn (map f l) = 0.
Proof.
  induction l as [|x l IH]; intros H; [reflexivity|].
  change (f x + sumn (map f l) = 0). rewrite H, IH; cbn; auto. intros; apply H; cbn; auto.
Qed.
Lemma sumn_add {X} (f g : X -> nat) l :
  sumn (map (fun x => f x + g x) l) = sumn (map f l) + sumn (map g l).
Proof.
  induction l as [|x l IH]; [reflexivity|].
  change (f x + g x + sumn (map (fun x => f x + g x) l) = (f x + sumn (map f l)) + (g x + sumn (map g l))).
  lia.
Qed.
Lemma sumn_ext {X} (f g : X -> nat) l : (forall x, In x l -> f x = g x) -> sumn (map f l) = sumn (map g l).
Proof. intros H. f_equal. apply map_ext_in. auto. Qed.

Lemma count_range idx : forall i n, Forall (fun k => i <= k < i + n) idx ->
  sumn (map (count_occ Nat.eq_dec idx) (seq i n)) = length idx.
Proof.
  induction idx as [|k ks IH]; intros i n F.
  - apply sumn_zero. reflexivity.
  - inversion F as [|? ? Hk Fk]; subst. cbn [length].
    rewrite (sumn_ext _ (fun j => (if Nat.eq_dec k j then 1 else 0) + count_occ Nat.eq_dec ks j)).
    2:{ intros x _. cbn. destruct (Nat.eq_dec k x); reflexivity. }
    rewrite sumn_add, IH by auto. cbn. f_equal. clear -Hk.
    replace n with ((k - i) + S (n - (k - i) - 1)) by lia.
    rewrite seq_app, map_app, sumn_app. cbn [seq map].
    change (sumn (?x :: ?l)) with (x + sumn l).
    rewrite !sumn_zero.
    + replace (i + (k - i)) with k by lia. destruct (Nat.eq_dec k k); lia.
    + intros x Hx. apply in_seq in Hx. destruct (Nat.eq_dec k x); lia.
    + intros x Hx. apply in_seq in Hx. destruct (Nat.eq_dec k x); lia.
Qed.

Lemma np_insert_length {X} (arr : list X) idx vals l :
  length vals = length idx -> np_insert arr idx vals = Ok l -> length l = length arr + length idx.
Proof.
  intros H. unfold np_insert. destruct (existsb _ idx) eqn:E; [discriminate|].
  rewrite H, Nat.eqb_refl. intros [= <-]. rewrite insert_from_length' by auto.
  f_equal. apply count_range. apply Forall_forall. intros k Hk. cbn.
  destruct (Nat.ltb_spec (length arr) k) as [Hlt|]; [|lia].
  exfalso. apply Bool.not_true_iff_false in E. apply E. apply existsb_exists.
  exists k. split; auto. now apply Nat.ltb_lt.
Qed.

Lemma slice_length_le {X} a b (l : list X) : length (slice a b l) <= b - a.
Proof. unfold slice. rewrite firstn_length. lia. Qed.
Lemma slice_length_full {X} a b (l : list X) : a < b -> length (slice a b l) = b - a -> b <= length l.
Proof. unfold slice. rewrite firstn_length, skipn_length. lia. Qed.

Lemma reshape_vals_needs ps : forall flat vals s0 f0 qs,
  Forall param_wf ps -> f0 + total_fixed ps <= length vals ->
  s0 <= length flat ->
  reshape_vals flat vals s0 f0 ps = Ok qs -> s0 + total_free ps <= length flat.
Proof.
  induction ps as [|p ps IH]; intros flat vals s0 f0 qs Hw Hf Hs H.
  - cbn. lia.
  - rewrite total_free_cons. rewrite total_fixed_cons in Hf. cbn [reshape_vals] in H.
    inversion Hw as [|? ? Hp Hps]; subst.
    destruct (np_insert _ _ _) as [l|] eqn:E1; [|discriminate]. cbn [rbind] in H.
    assert (L2 : length (slice f0 (f0 + p_nfixed p) vals) = length (fix_map (p_mask p))).
    { rewrite slice_length, fix_map_length by lia. unfold p_nfixed. lia. }
    apply np_insert_length in E1; [|exact L2].
    unfold np_reshape in H. destruct (Nat.eqb_spec (length l) (prodn (p_shape p))) as [El|]; [|discriminate].
    cbn [rbind] in H. destruct (Param_init _ _) as [q|]; [|discriminate]. cbn [rbind] in H.
    destruct (reshape_vals flat vals (s0 + p_count p) (f0 + p_nfixed p) ps) as [qs'|] eqn:E2; [|discriminate].
    rewrite fix_map_length in E1. pose proof (p_counts p Hp) as C. unfold p_nfixed in *.
    assert (Ls : length (slice s0 (s0 + p_count p) flat) = p_count p) by lia.
    assert (Hs' : s0 + p_count p <= length flat).
    { destruct (p_count p) as [|c] eqn:Ec; [lia|].
      apply (slice_length_full s0); lia. }
    assert (Hf' : f0 + nfix (p_mask p) + total_fixed ps <= length vals) by lia.
    specialize (IH _ _ _ _ _ Hps Hf' Hs' E2). lia.
Qed.

Lemma reshape_params_inv ps flat qs :
  Forall param_wf ps -> reshape_params ps flat = Ok qs ->
  ps <> [] /\ total_free ps <= length flat /\ qs = rebuild flat (concat (map fixed_vals ps)) ps.
Proof.
  intros Hw H. assert (Hne : ps <> []) by (intros ->; discriminate).
  split; auto.
  assert (Hl : total_free ps <= length flat).
  { unfold reshape_params in H. rewrite np_concatenate_map in H by auto. cbn [rbind reshape_array] in H.
    apply reshape_vals_needs in H; auto; cbn; [|lia]. rewrite concat_fixed_length; auto. }
  split; auto.
  rewrite reshape_params_rebuild in H by auto. now injection H as <-.
Qed.

Lemma reshape_params_preserves ps flat qs :
  Forall param_wf ps -> reshape_params ps flat = Ok qs ->
  map p_shape qs = map p_shape ps /\ map p_mask qs = map p_mask ps /\
  map fixed_vals qs = map fixed_vals ps /\
  free_concat qs = firstn (total_free ps) flat /\ Forall param_wf qs.
Proof.
  intros Hw H. destruct (reshape_params_inv ps flat qs Hw H) as (Hne & Hl & ->).
  now apply rebuild_spec.
Qed.

End Proofs.
