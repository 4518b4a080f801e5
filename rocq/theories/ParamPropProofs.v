(** Proofs of the statements of Props_Param.v *)
From Verif Require Import Prelude ParamModel ParamProofs ParamSpec.

Section P.
Context {A : Type}.
Implicit Types (ps : list (param A)).

Lemma C01_p ps : ps <> [] -> Forall param_wf ps ->
  flat_params ps = Ok (free_entries ps) /\ reshape_params ps (free_entries ps) = Ok ps.
Proof.
  intros Hne H. split.
  { rewrite free_entries_flat. unfold flat_params. now apply np_concatenate_map. }
  rewrite free_entries_flat. now apply reshape_params_roundtrip.
Qed.

Lemma C02_p ps flat : ps <> [] -> Forall param_wf ps -> length flat = n_free ps ->
  exists qs, reshape_params ps flat = Ok qs /\
    map p_shape qs = map p_shape ps /\ map p_mask qs = map p_mask ps /\
    map (entries_with true) qs = map (entries_with true) ps /\
    free_entries qs = flat /\ Forall param_wf qs.
Proof.
  rewrite n_free_total. intros Hne Hw H.
  destruct (reshape_params_spec ps flat Hne Hw) as (qs & E & E1 & E2 & E3 & E4 & E5); [lia|].
  exists qs. repeat split; auto.
  - rewrite !(map_ext _ _ entries_fixed). exact E3.
  - rewrite free_entries_flat, E4, <- H. apply firstn_all.
Qed.

Lemma C03_matrix_p ps (m : mat A) v n :
  Forall param_wf ps -> m_shape m = [n; n] -> length (m_rows m) = n ->
  Forall (fun r => length r = n) (m_rows m) -> n_free ps <= n ->
  exists blocks, reshape_matrix ps m v = Ok blocks /\ length blocks = length ps /\
   (forall row, In row blocks -> length row = length ps) /\
   forall i j pi pj, nth_error ps i = Some pi -> nth_error ps j = Some pj ->
     exists blk, elem blocks i j = Some blk /\
       nd_shape blk = p_shape pi ++ p_shape pj /\ nd_wf blk /\
       forall a b ma mb, nth_error (p_mask pi) a = Some ma -> nth_error (p_mask pj) b = Some mb ->
         nth_error (nd_flat blk) (a * prodn (p_shape pj) + b) =
         if ma || mb then Some v else elem (m_rows m) (free_pos ps i a) (free_pos ps j b).
Proof.
  rewrite n_free_total. intros Hw Hs Hl Hr Hn.
  destruct (reshape_matrix_spec ps m v n Hw Hs Hl Hr Hn) as (bl & E & L & R & S).
  exists bl. repeat split; auto. intros i j pi pj Hi Hj.
  destruct (S i j pi pj Hi Hj) as (row & blk & E1 & E2 & E3 & E4 & E5).
  exists blk. unfold elem at 1. rewrite E1. repeat split; auto.
  intros a b ma mb Ha Hb. rewrite (E5 a b ma mb Ha Hb).
  now rewrite (free_pos_rank ps i a pi Hi), (free_pos_rank ps j b pj Hj).
Qed.

Lemma C03_vector_p ps flat v : Forall param_wf ps -> n_free ps <= length flat ->
  exists qs, reshape_array ps flat (FScalar v) = Ok qs /\
    map p_shape qs = map p_shape ps /\ map p_mask qs = map p_mask ps /\
    forall i p q a b, nth_error ps i = Some p -> nth_error qs i = Some q ->
      nth_error (p_mask p) a = Some b ->
      nth_error (p_vals q) a = if b then Some v else nth_error flat (free_pos ps i a).
Proof.
  rewrite n_free_total. intros Hw Hl.
  destruct (reshape_scalar_nth ps flat v 0 Hw) as (qs & E & E1 & E2 & E3); [lia|].
  exists qs. repeat split; auto. intros i p q a b Hp Hq Hb.
  rewrite (E3 i p q a b Hp Hq Hb). destruct b; auto.
  now rewrite (free_pos_rank ps i a p Hp).
Qed.

Lemma C15_p inv neg sqrt nan ps c H iv :
  Forall param_wf ps -> inv H = Ok iv ->
  length (m_rows iv) = n_free ps + c ->
  Forall (fun r => length r = n_free ps + c) (m_rows iv) -> 1 <= c ->
  exists out, std_error inv neg sqrt nan ps c H = Ok out /\ length out = length ps /\
    forall i p, nth_error ps i = Some p -> exists vals,
      nth_error out i = Some (p_shape p, vals, p_mask p) /\
      forall a b, nth_error (p_mask p) a = Some b ->
        nth_error vals a =
        if b then Some nan
        else option_map (fun x => sqrt (neg x)) (elem (m_rows iv) (free_pos ps i a) (free_pos ps i a)).
Proof.
  rewrite n_free_total. intros Hw Hi Hl Hr Hc. destruct c as [|c]; [lia|].
  destruct (std_error_spec inv neg sqrt nan ps c H iv Hw Hi Hl Hr) as (out & E & L & S).
  exists out. repeat split; auto. intros i p Hp. destruct (S i p Hp) as (vals & E1 & E2).
  exists vals. split; auto. intros a b Hb. rewrite (E2 a b Hb). destruct b; auto. cbv zeta.
  rewrite (free_pos_rank ps i a p Hp). unfold elem.
  destruct (nth_error (m_rows iv) _); reflexivity.
Qed.

Lemma C16_p ps extra c : Forall param_wf ps ->
  dof ps extra c = (Z.of_nat (n_free ps) + Z.of_nat (n_fixed ps) + extra - Z.of_nat c)%Z.
Proof. rewrite n_free_total, n_fixed_total. apply dof_counts. Qed.

Lemma C16_iff_p ps extra c : Forall param_wf ps ->
  dof ps extra c = (Z.of_nat (n_free ps) + extra - Z.of_nat c)%Z <->
  Forall (fun p => Forall (fun b => b = false) (p_mask p)) ps.
Proof.
  intros Hw. rewrite C16_p by auto. split.
  - intros H. assert (Z : n_fixed ps = 0) by lia. clear H.
    unfold n_fixed in Z. apply Forall_forall. intros p Hp. apply Forall_forall. intros b Hb.
    destruct b; auto. exfalso.
    apply (count_occ_not_In bool_dec) in Z. apply Z. apply in_concat.
    exists (p_mask p). split; auto. now apply in_map.
  - intros H. assert (n_fixed ps = 0); [|lia].
    unfold n_fixed. apply count_occ_not_In. intros Hin. apply in_concat in Hin as (m & Hm & Hin).
    apply in_map_iff in Hm as (p & <- & Hp). rewrite Forall_forall in H. specialize (H p Hp).
    rewrite Forall_forall in H. specialize (H _ Hin). discriminate.
Qed.
End P.
