(** Properties C01, C02, C03, C15, C16.  Statements only; proofs are in
    ParamPropProofs.v.  [free_entries], [entries_with], [n_free], [free_pos]
    and [elem] are defined in ParamSpec.v. *)
From Coq Require Import Reals.
From Verif Require Import Prelude ParamModel ParamProofs ParamSpec ParamPropProofs InfoModel.

(** A 2x3 parameter with two fixed entries, a scalar fixed one, a free vector. *)
Definition ex_ps : list (param nat) :=
  [ mkParam [2; 3] [10; 11; 12; 13; 14; 15] [false; true; false; false; true; false];
    mkParam [] [20] [true];
    mkParam [2] [30; 31] [false; false] ].
Example ex_ps_wf : Forall param_wf ex_ps.
Proof. repeat constructor. Qed.
(** They are what [Param_init] builds. *)
Example ex_ps_init :
  Param_init (mkNd [2; 3] [10; 11; 12; 13; 14; 15])
             (Some (mkNd [2; 3] [false; true; false; false; true; false])) =
  Ok (nth 0 ex_ps (mkParam [] [] [])).
Proof. reflexivity. Qed.

Theorem C01_flatten_rebuild_roundtrip :
  forall (A : Type) (ps : list (param A)), ps <> [] -> Forall param_wf ps ->
  flat_params ps = Ok (free_entries ps) /\ reshape_params ps (free_entries ps) = Ok ps.
Proof. exact @C01_p. Qed.
Print Assumptions C01_flatten_rebuild_roundtrip.

Theorem C02_rebuild_places_every_number :
  forall (A : Type) (ps : list (param A)) (flat : list A),
  ps <> [] -> Forall param_wf ps -> length flat = n_free ps ->
  exists qs, reshape_params ps flat = Ok qs /\
    map p_shape qs = map p_shape ps /\ map p_mask qs = map p_mask ps /\
    map (entries_with true) qs = map (entries_with true) ps /\
    free_entries qs = flat /\ Forall param_wf qs.
Proof. exact @C02_p. Qed.
Print Assumptions C02_rebuild_places_every_number.
Example C02_nonvacuous : exists qs,
  length [1; 2; 3; 4; 5; 6] = n_free ex_ps /\
  reshape_params ex_ps [1; 2; 3; 4; 5; 6] = Ok qs /\
  map p_vals qs = [[1; 11; 2; 3; 14; 4]; [20]; [5; 6]].
Proof. eexists; repeat split. Qed.

Theorem C03_matrix_blocks_line_up :
  forall (A : Type) (ps : list (param A)) (m : mat A) (v : A) (n : nat),
  Forall param_wf ps -> m_shape m = [n; n] -> length (m_rows m) = n ->
  Forall (fun r => length r = n) (m_rows m) -> n_free ps <= n ->
  exists blocks, reshape_matrix ps m v = Ok blocks /\ length blocks = length ps /\
   (forall row, In row blocks -> length row = length ps) /\
   forall i j pi pj, nth_error ps i = Some pi -> nth_error ps j = Some pj ->
     exists blk, elem blocks i j = Some blk /\
       nd_shape blk = p_shape pi ++ p_shape pj /\ nd_wf blk /\
       forall a b ma mb, nth_error (p_mask pi) a = Some ma -> nth_error (p_mask pj) b = Some mb ->
         nth_error (nd_flat blk) (a * prodn (p_shape pj) + b) =
         if ma || mb then Some v else elem (m_rows m) (free_pos ps i a) (free_pos ps j b).
Proof. exact @C03_matrix_p. Qed.
Print Assumptions C03_matrix_blocks_line_up.
Definition ex_mat : mat nat :=
  mkMat [7; 7] (map (fun i => map (fun j => 10 * i + j) (seq 0 7)) (seq 0 7)).
Example C03_nonvacuous :
  n_free ex_ps <= 7 /\ m_shape ex_mat = [7; 7] /\
  (exists bl blk, reshape_matrix ex_ps ex_mat 99 = Ok bl /\ elem bl 0 2 = Some blk /\
     nd_flat blk = [4; 5; 99; 99; 14; 15; 24; 25; 99; 99; 34; 35]).
Proof. split; [cbn; lia|]. split; [reflexivity|]. do 2 eexists. repeat split. Qed.

Theorem C03_matrix_bad_shape :
  forall (A : Type) (ps : list (param A)) (m : mat A) (v : A),
  (forall n, m_shape m <> [n; n]) -> reshape_matrix ps m v = Raise ValueError.
Proof. exact @reshape_matrix_bad_shape. Qed.
Print Assumptions C03_matrix_bad_shape.

Theorem C03_vector_entries_line_up :
  forall (A : Type) (ps : list (param A)) (flat : list A) (v : A),
  Forall param_wf ps -> n_free ps <= length flat ->
  exists qs, reshape_array ps flat (FScalar v) = Ok qs /\
    map p_shape qs = map p_shape ps /\ map p_mask qs = map p_mask ps /\
    forall i p q a b, nth_error ps i = Some p -> nth_error qs i = Some q ->
      nth_error (p_mask p) a = Some b ->
      nth_error (p_vals q) a = if b then Some v else nth_error flat (free_pos ps i a).
Proof. exact @C03_vector_p. Qed.
Print Assumptions C03_vector_entries_line_up.

Theorem C15_std_error_constrained :
  forall (A : Type) (inv : mat A -> res (mat A)) (neg sqrt : A -> A) (nan : A)
         (ps : list (param A)) (c : nat) (H iv : mat A),
  Forall param_wf ps -> inv H = Ok iv ->
  length (m_rows iv) = n_free ps + c ->
  Forall (fun r => length r = n_free ps + c) (m_rows iv) -> 1 <= c ->
  exists out, std_error inv neg sqrt nan ps c H = Ok out /\ length out = length ps /\
    forall i p, nth_error ps i = Some p -> exists vals,
      nth_error out i = Some (p_shape p, vals, p_mask p) /\
      forall a b, nth_error (p_mask p) a = Some b ->
        nth_error vals a =
        if b then Some nan
        else option_map (fun x => sqrt (neg x)) (elem (m_rows iv) (free_pos ps i a) (free_pos ps i a)).
Proof. exact @C15_p. Qed.
Print Assumptions C15_std_error_constrained.
Example C15_nonvacuous : n_free ex_ps + 1 = 7 /\
  std_error (fun m => Ok m) (fun x => x) (fun x => x) 99 ex_ps 1 ex_mat =
  Ok [([2; 3], [0; 99; 11; 22; 99; 33], [false; true; false; false; true; false]);
      ([], [99], [true]); ([2], [44; 55], [false; false])].
Proof. split; reflexivity. Qed.

Theorem C15_std_error_unconstrained_refuted :
  forall (A : Type) (inv : mat A -> res (mat A)) (neg sqrt : A -> A) (nan : A)
         (ps : list (param A)) (H iv : mat A),
  inv H = Ok iv -> std_error inv neg sqrt nan ps 0 H = Raise TypeError.
Proof. exact @std_error_no_constraint. Qed.
Print Assumptions C15_std_error_unconstrained_refuted.

(** k counts every entry, fixed or not. *)
Theorem C16_dof_counts_fixed_entries :
  forall (A : Type) (ps : list (param A)) (extra : Z) (c : nat), Forall param_wf ps ->
  dof ps extra c = (Z.of_nat (n_free ps) + Z.of_nat (n_fixed ps) + extra - Z.of_nat c)%Z.
Proof. exact @C16_p. Qed.
Print Assumptions C16_dof_counts_fixed_entries.

Theorem C16_dof_is_free_count_iff_nothing_fixed :
  forall (A : Type) (ps : list (param A)) (extra : Z) (c : nat), Forall param_wf ps ->
  dof ps extra c = (Z.of_nat (n_free ps) + extra - Z.of_nat c)%Z <->
  Forall (fun p => Forall (fun b => b = false) (p_mask p)) ps.
Proof. exact @C16_iff_p. Qed.
Print Assumptions C16_dof_is_free_count_iff_nothing_fixed.

(** The returned numbers are (1/n) times the textbook criteria of the docstrings. *)
Theorem C16_aic_is_mean_corrected_aic :
  forall (A : Type) (ps : list (param A)) (extra : Z) (c : nat) (n l : R),
  Forall param_wf ps ->
  let k := IZR (Z.of_nat (n_free ps) + Z.of_nat (n_fixed ps) + extra - Z.of_nat c) in
  (n <> 0 -> n - k - 1 <> 0 ->
   aic ps extra c n l = (2 * k - 2 * (l * n) + 2 * k * (k + 1) / (n - (k + 1))) / n)%R.
Proof. exact @aic_doc. Qed.
Print Assumptions C16_aic_is_mean_corrected_aic.

Theorem C16_bic_is_mean_bic :
  forall (A : Type) (ps : list (param A)) (extra : Z) (c : nat) (n l : R),
  Forall param_wf ps ->
  let k := IZR (Z.of_nat (n_free ps) + Z.of_nat (n_fixed ps) + extra - Z.of_nat c) in
  (n <> 0 -> bic ps extra c n l = (k * ln n - 2 * (l * n)) / n)%R.
Proof. exact @bic_doc. Qed.
Print Assumptions C16_bic_is_mean_bic.
