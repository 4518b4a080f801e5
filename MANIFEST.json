{
 "claims": [
  {
   "property": "C01",
   "status": "proved",
   "theorems": [
    "C01_flatten_rebuild_roundtrip"
   ],
   "note": ""
  },
  {
   "property": "C02",
   "status": "proved",
   "theorems": [
    "C02_rebuild_places_every_number"
   ],
   "note": ""
  },
  {
   "property": "C03",
   "status": "proved",
   "theorems": [
    "C03_matrix_bad_shape",
    "C03_matrix_blocks_line_up",
    "C03_vector_entries_line_up"
   ],
   "note": "error_matrix/fisher_matrix call _reshape_matrix with the scalar filler; the array-filler branch is not modelled (unused in the code base)."
  },
  {
   "property": "C04",
   "status": "proved",
   "theorems": [
    "C04_any_history_keeps_fixed_entries",
    "C04_fit_keeps_fixed_entries"
   ],
   "note": ""
  },
  {
   "property": "C05",
   "status": "proved",
   "theorems": [
    "C05_broyden_last_pinvh_refuted",
    "C05_data_replaced_even_on_failure",
    "C05_failed_fit_keeps_parameters",
    "C05_failed_newton_changes_nothing"
   ],
   "note": "Covers every exception point of the modelled fit; the numerics (model, linear algebra, tol test) are oracles that may raise anywhere."
  },
  {
   "property": "C06",
   "status": "proved",
   "theorems": [
    "C06_newton_never_ends_worse"
   ],
   "note": ""
  },
  {
   "property": "C07",
   "status": "proved",
   "theorems": [
    "C07_broyden_bounded_work",
    "C07_multipliers",
    "C07_newton_bounded_work",
    "C07_no_steps"
   ],
   "note": ""
  },
  {
   "property": "C08",
   "status": "proved",
   "theorems": [
    "C08_broyden_success_sets_flag",
    "C08_convergence_error_clears_flag",
    "C08_newton_leaves_flag",
    "C08_newton_success_flag_refuted"
   ],
   "note": "Includes the finding that Newton never sets converged."
  },
  {
   "property": "C09",
   "status": "proved",
   "theorems": [
    "C09_broyden_true_means_criterion",
    "C09_newton_true_means_criterion",
    "C09_zero_objective_is_never_accepted"
   ],
   "note": ""
  },
  {
   "property": "C10",
   "status": "proved",
   "theorems": [
    "C10_curvature_at_returned_point_refuted",
    "C10_newton_curvature_is_at_last_departure_point"
   ],
   "note": "Includes the finding that the stored curvature is taken at the pre-step point."
  },
  {
   "property": "C11",
   "status": "proved",
   "theorems": [
    "C11_linear_constraints",
    "C11_undamped_step_satisfies_constraints"
   ],
   "note": "Exact linear solve over any commutative ring; floating-point rounding is not modelled."
  },
  {
   "property": "C12",
   "status": "proved",
   "theorems": [
    "C12_cut_is_number_of_free_parameters",
    "C12_newton_step_is_the_free_part_of_the_solution",
    "C12_no_free_parameter_no_cut"
   ],
   "note": ""
  },
  {
   "property": "C13",
   "status": "proved",
   "theorems": [
    "C13_empty_param_map_raises",
    "C13_flat_gradient"
   ],
   "note": "Blocks are dense lists over any ring; Tensor representation is C51-C59."
  },
  {
   "property": "C14",
   "status": "proved",
   "theorems": [
    "C14_flat_hessian",
    "C14_symmetric",
    "C14_unordered_param_map_raises"
   ],
   "note": "Blocks are dense lists over any ring; includes the IndexError finding for unordered param_maps."
  },
  {
   "property": "C15",
   "status": "proved",
   "theorems": [
    "C15_std_error_constrained",
    "C15_std_error_unconstrained_refuted"
   ],
   "note": "numpy inv and sqrt are oracles."
  },
  {
   "property": "C16",
   "status": "proved",
   "theorems": [
    "C16_aic_is_mean_corrected_aic",
    "C16_bic_is_mean_bic",
    "C16_dof_counts_fixed_entries",
    "C16_dof_is_free_count_iff_nothing_fixed"
   ],
   "note": "n and l are arbitrary reals; np.ma.count(Param) counting every entry is read off numpy's behaviour (Param.__array__)."
  },
  {
   "property": "C17",
   "status": "proved",
   "theorems": [
    "C17_broyden_verbose_breaks_refuted",
    "C17_broyden_verbose_never_succeeds",
    "C17_newton_verbosity_is_irrelevant"
   ],
   "note": "Includes the finding that a verbose Broyden fit cannot succeed."
  },
  {
   "property": "C18",
   "status": "proved",
   "theorems": [
    "C18_poisson"
   ],
   "note": "Dense arrays over R; floating point not modelled; gammaln is an arbitrary function. "
  },
  {
   "property": "C19",
   "status": "proved",
   "theorems": [
    "C19_zero_inflated_poisson"
   ],
   "note": "Dense arrays over R; floating point not modelled; gammaln is an arbitrary function. "
  },
  {
   "property": "C20",
   "status": "proved",
   "theorems": [
    "C20_logistic"
   ],
   "note": "Dense arrays over R; floating point not modelled; gammaln is an arbitrary function. "
  },
  {
   "property": "C21",
   "status": "proved",
   "theorems": [
    "C21_finite"
   ],
   "note": "Dense arrays over R; floating point not modelled; gammaln is an arbitrary function. "
  },
  {
   "property": "C22",
   "status": "proved",
   "theorems": [
    "C22_normalized_finite"
   ],
   "note": "Dense arrays over R; floating point not modelled; gammaln is an arbitrary function. "
  },
  {
   "property": "C23",
   "status": "proved",
   "theorems": [
    "C23_negative_binomial"
   ],
   "note": "Dense arrays over R; floating point not modelled; gammaln is an arbitrary function. "
  },
  {
   "property": "C24",
   "status": "proved",
   "theorems": [
    "C24_logistic_aggregates",
    "C24_negbin_aggregates",
    "C24_poisson_aggregates",
    "C24_zip_aggregates"
   ],
   "note": "Equality up to an additive constant that does not depend on the model values."
  },
  {
   "property": "C25",
   "status": "proved",
   "theorems": [
    "C25_ArcTan",
    "C25_Constant",
    "C25_Exp",
    "C25_Linear",
    "C25_Log",
    "C25_LogNegativeBinomial",
    "C25_Logistic",
    "C25_NegativeBinomial",
    "C25_Poisson",
    "C25_Quadratic",
    "C25_Scalar",
    "C25_Sigmoid_arctan",
    "C25_Vector",
    "C25_X"
   ],
   "note": "Vector for a rank-0 parameter; X/Logistic/ArcTan for parameters without distribution axes; Linear stated as values and derivatives (its gradient has axes of size 1). Dense meaning; the Tensor representation is the subject of C51-C59."
  },
  {
   "property": "C26",
   "status": "proved",
   "theorems": [
    "C26_arithmetic",
    "C26_derivatives",
    "C26_eval"
   ],
   "note": "For functions that are not themselves Affine; Affine of Affine is flattened by the constructor (C31/C32)."
  },
  {
   "property": "C27",
   "status": "proved",
   "theorems": [
    "C27_absent",
    "C27_sum"
   ],
   "note": "Any atoms with distinct parameters in each atom; absent parameters give zero."
  },
  {
   "property": "C28",
   "status": "proved",
   "theorems": [
    "C28_product"
   ],
   "note": "Non-empty products."
  },
  {
   "property": "C29",
   "status": "proved",
   "theorems": [
    "C29_chain_rule"
   ],
   "note": "Each inner function on the whole parameter list."
  },
  {
   "property": "C30",
   "status": "proved",
   "theorems": [
    "C30_derivatives",
    "C30_reindexed",
    "C30_repeated_parameter_refuted"
   ],
   "note": "Includes the refutation for a parameter repeated in param_map (cross term lost)."
  },
  {
   "property": "C31",
   "status": "proved",
   "theorems": [
    "C31_built_correct",
    "C31_descending_refuted",
    "C31_eval",
    "C31_sum_offset_refuted"
   ],
   "note": "Includes two findings: Sum.eval loses the offset; eval raises IndexError for a non-ascending param_map."
  },
  {
   "property": "C32",
   "status": "proved",
   "theorems": [
    "C32_drift_refuted",
    "C32_no_drift",
    "C32_sum_add"
   ],
   "note": "The drift of the offset by weight is computed exactly; includes the refutation."
  },
  {
   "property": "C33",
   "status": "proved",
   "theorems": [
    "C33_first_factor",
    "C33_product_add"
   ],
   "note": "Includes the first-factor case."
  },
  {
   "property": "C34",
   "status": "proved",
   "theorems": [
    "C34_asserts",
    "C34_matrix_mass",
    "C34_vector_mass"
   ],
   "note": "One feature cell; the code treats cells independently."
  },
  {
   "property": "C35",
   "status": "proved",
   "theorems": [
    "C35_matrix_chain",
    "C35_vector_chain"
   ],
   "note": "One feature cell."
  },
  {
   "property": "C36",
   "status": "proved",
   "theorems": [
    "C36_matrix_eval",
    "C36_matrix_mixed_derivative_finding",
    "C36_vector_eval"
   ],
   "note": "Includes the refutation of the mixed derivative for asymmetric skews."
  },
  {
   "property": "C37",
   "status": "proved",
   "theorems": [
    "C37_collapse_gradient",
    "C37_collapse_partition",
    "C37_explicit_conditions_finding",
    "C37_gradient_shape"
   ],
   "note": "Includes the AttributeError finding and the rotated feature axes with three features."
  },
  {
   "property": "C38",
   "status": "proved",
   "theorems": [
    "C38_game",
    "C38_set",
    "C38_tiebreak"
   ],
   "note": ""
  },
  {
   "property": "C39",
   "status": "proved",
   "theorems": [
    "C39_game",
    "C39_set",
    "C39_set_clipped_finding",
    "C39_set_upper_triangle_finding",
    "C39_tiebreak"
   ],
   "note": "Set within the clipping range; outside it grad is proved not to be the derivative."
  },
  {
   "property": "C40",
   "status": "proved",
   "theorems": [
    "C40_margins",
    "C40_refused"
   ],
   "note": "Four of the five families, real arithmetic; the Gaussian copula (scipy mvnun) is not modelled."
  },
  {
   "property": "C41",
   "status": "proved",
   "theorems": [
    "C41_nonneg"
   ],
   "note": "All four closed-form families, via the 2-increasing property proved over the whole unit square."
  },
  {
   "property": "C42",
   "status": "proved",
   "theorems": [
    "C42_amh0",
    "C42_amh1_not_independent",
    "C42_gumbel1"
   ],
   "note": "Includes the refutation of the AkiMikhailHaq docstring: AMH(1) is never independence on two non-degenerate binary marginals."
  },
  {
   "property": "C43",
   "status": "proved",
   "theorems": [
    "C43_cdf",
    "C43_mid_cdf",
    "C43_vector"
   ],
   "note": ""
  },
  {
   "property": "C44",
   "status": "proved",
   "theorems": [
    "C44_invalid_is_returned",
    "C44_root",
    "C44_unique"
   ],
   "note": "ndtri is an arbitrary function; includes existence and uniqueness of the root and the returned-exception-class finding."
  },
  {
   "property": "C45",
   "status": "proved",
   "theorems": [
    "C45_cdf",
    "C45_docstring_orientation_false",
    "C45_pair"
   ],
   "note": "Includes the refutation of the documented orientation."
  },
  {
   "property": "C46",
   "status": "proved",
   "theorems": [
    "C46_invalid",
    "C46_nonconvergence_is_TypeError",
    "C46_root"
   ],
   "note": "np.linalg.solve and ndtri are arbitrary functions; |tol| < 1."
  },
  {
   "property": "C47",
   "status": "proved",
   "theorems": [
    "C47_never_returns",
    "C47_raises_only_ValueError",
    "C47_root"
   ],
   "note": "Includes non-termination for unreachable targets, for every ndtri with ndtri(tol) <= -2; numpy's x/0 is an arbitrary finite number."
  },
  {
   "property": "C48",
   "status": "proved",
   "theorems": [
    "C48_conservation",
    "C48_series",
    "C48_series_default",
    "C48_series_flat"
   ],
   "note": "pandas groupby/agg/reindex/fillna modelled by association lists; NaN labels not modelled."
  },
  {
   "property": "C49",
   "status": "proved",
   "theorems": [
    "C49_dataframe"
   ],
   "note": "As C48; NaN weights and results not modelled."
  },
  {
   "property": "C50",
   "status": "proved",
   "theorems": [
    "C50_df_count",
    "C50_exactly_one",
    "C50_last_columns_swapped",
    "C50_small_size"
   ],
   "note": "Integer series; includes the swapped-columns finding and IndexError for size < 2."
  },
  {
   "property": "C51",
   "status": "proved",
   "theorems": [
    "C51_drop_dim",
    "C51_neg",
    "C51_rdiv",
    "C51_scalar",
    "C51_toarray",
    "C51_zero"
   ],
   "note": "Exact real entries. c/t is stated for tensors without diagonals (off a diagonal the dense quotient is not a number)."
  },
  {
   "property": "C52",
   "status": "proved",
   "theorems": [
    "C52_add",
    "C52_formal",
    "C52_number_left_wrong"
   ],
   "note": "Includes the refutation for a rank-0 Tensor on the left of a diagonal."
  },
  {
   "property": "C53",
   "status": "proved",
   "theorems": [
    "C53_extract",
    "C53_extract_left",
    "C53_extraction_limits",
    "C53_mul",
    "C53_rank0"
   ],
   "note": "Class: equal maps or one operand without the axes; or a diagonal against a full operand (extraction). Includes refutations outside the class."
  },
  {
   "property": "C54",
   "status": "proved",
   "theorems": [
    "C54_one_feature_wrong",
    "C54_sum",
    "C54_sum_dims",
    "C54_sum_formal"
   ],
   "note": "Includes the partial-sum refutation."
  },
  {
   "property": "C55",
   "status": "proved",
   "theorems": [
    "C55_errors",
    "C55_expand",
    "C55_expand_dim"
   ],
   "note": "Non-negative positions."
  },
  {
   "property": "C56",
   "status": "proved",
   "theorems": [
    "C56_flip",
    "C56_flip_dim",
    "C56_flip_dim_twice",
    "C56_flip_twice",
    "C56_mapped"
   ],
   "note": ""
  },
  {
   "property": "C57",
   "status": "proved",
   "theorems": [
    "C57_larger_wrong",
    "C57_transpose",
    "C57_twice"
   ],
   "note": "Includes the refutation for larger x_dim/y_dim."
  },
  {
   "property": "C58",
   "status": "proved",
   "theorems": [
    "C58_dot_left",
    "C58_dot_left_transposed"
   ],
   "note": ""
  },
  {
   "property": "C59",
   "status": "proved",
   "theorems": [
    "C59_dot_right",
    "C59_mismatch_raises",
    "C59_unmapped_raises",
    "C59_zero"
   ],
   "note": ""
  },
  {
   "property": "C60",
   "status": "proved",
   "theorems": [
    "C60_alias_changes",
    "C60_attributes",
    "C60_mask_changes",
    "C60_only_shared_writes",
    "C60_param",
    "C60_tensor",
    "C60_tensor_copied"
   ],
   "note": "Heap model with numpy write-flag rules; includes two aliasing findings."
  },
  {
   "property": "C61",
   "status": "proved",
   "theorems": [
    "C61_concave_logistic",
    "C61_concave_negbin",
    "C61_concave_poisson",
    "C61_concave_zip"
   ],
   "note": "Dense arrays over R; floating point not modelled; gammaln is an arbitrary function. "
  },
  {
   "property": "C62",
   "status": "proved",
   "theorems": [
    "C62_finite_is_normalized",
    "C62_finite_scale_free"
   ],
   "note": "Dense arrays over R; floating point not modelled; gammaln is an arbitrary function. "
  },
  {
   "property": "C63",
   "status": "proved",
   "theorems": [
    "C63_objective_gradient"
   ],
   "note": "Dense arrays over R; floating point not modelled; gammaln is an arbitrary function. "
  },
  {
   "property": "C64",
   "status": "proved",
   "theorems": [
    "C64_game_rules",
    "C64_set_rules",
    "C64_tiebreak_rules"
   ],
   "note": ""
  },
  {
   "property": "C65",
   "status": "proved",
   "theorems": [
    "C65_layout_rotated_finding",
    "C65_layout_scalar_and_vector"
   ],
   "note": ""
  },
  {
   "property": "C66",
   "status": "proved",
   "theorems": [
    "C66_cdf"
   ],
   "note": "u, v > 0 (and < 1 for Gumbel, whose formula has 0^a at the border; the border is covered by C40)."
  },
  {
   "property": "C67",
   "status": "proved",
   "theorems": [
    "C67_truncation"
   ],
   "note": "ndtri is an arbitrary function, negative at tol."
  },
  {
   "property": "C68",
   "status": "proved",
   "theorems": [
    "C68_broadcast_refuted",
    "C68_collapse",
    "C68_condition"
   ],
   "note": "Includes the broadcast refutation."
  },
  {
   "property": "C69",
   "status": "proved",
   "theorems": [
    "C69_expressions"
   ],
   "note": ""
  },
  {
   "property": "C70",
   "status": "proved",
   "theorems": [
    "C70_array_left_add",
    "C70_array_left_mul",
    "C70_extremum",
    "C70_extremum_right_never_returns",
    "C70_number_left",
    "C70_second_argument_ignored",
    "C70_unary",
    "C70_unary_refused"
   ],
   "note": "Includes two findings (infinite recursion of np.maximum(c, t); ignored second argument)."
  },
  {
   "property": "C71",
   "status": "proved",
   "theorems": [
    "C71_pow",
    "C71_pow_zero_wrong"
   ],
   "note": "Natural exponents only."
  },
  {
   "property": "C72",
   "status": "proved",
   "theorems": [
    "C72_dot_left",
    "C72_dot_right",
    "C72_dot_transposed",
    "C72_no_axes_raises",
    "C72_zero"
   ],
   "note": ""
  },
  {
   "property": "C73",
   "status": "proved",
   "theorems": [
    "C73_derivatives",
    "C73_no_errors",
    "C73_partial_derivative"
   ],
   "note": "One inner function per @, outer function entrywise or itself such an @ (as Python groups a @ b @ c); class `tbuilt` of FTBuilt.v."
  },
  {
   "property": "C74",
   "status": "proved",
   "theorems": [
    "C74_affine",
    "C74_compose",
    "C74_poisson",
    "C74_primitives",
    "C74_sum",
    "C74_wrap"
   ],
   "note": ""
  },
  {
   "property": "C75",
   "status": "proved",
   "theorems": [
    "C75_flip_refuted",
    "C75_ignored_parameter_refuted",
    "C75_linear_outer_refuted",
    "C75_rank_depends_on_value",
    "C75_zero_scalar_refuted"
   ],
   "note": "Findings: behaviour outside the class of C73."
  },
  {
   "property": "C76",
   "status": "proved",
   "theorems": [
    "C76_logistic",
    "C76_negative_binomial",
    "C76_normalized_finite",
    "C76_poisson",
    "C76_unused_parameter_refuted",
    "C76_zero_inflated_poisson"
   ],
   "note": "Models: class `tbuilt`. Finite: C77."
  },
  {
   "property": "C77",
   "status": "proved",
   "theorems": [
    "C77_broadcast_dim_refuted",
    "C77_finite"
   ],
   "note": "Models: class `tbuilt` with full dim axes; the refutation shows the restriction is needed."
  },
  {
   "property": "C78",
   "status": "proved",
   "theorems": [
    "C78_flat_gradient",
    "C78_flat_hessian",
    "C78_linear",
    "C78_objective",
    "C78_quadratic"
   ],
   "note": "Constraints and regularizations: any function objects meeting `constraint`/`penalty` of OTSpec.v; Linear and Quadratic proved to meet them. param_map strictly ascending."
  },
  {
   "property": "C79",
   "status": "proved",
   "theorems": [
    "C79_eval_agrees",
    "C79_eval_derivatives",
    "C79_same_objects",
    "C79_sum_offset"
   ],
   "note": "Class `ebuilt` (ETSpec.v): that of C73 with eval methods, Sum offset 0; the offset is a finding, proved."
  },
  {
   "property": "C80",
   "status": "proved",
   "theorems": [
    "C80_newton_fit",
    "C80_newton_step"
   ],
   "note": "Numbers are reals and the solver is a parameter assumed exact; C80_nonvacuous is a complete run."
  },
  {
   "property": "C81",
   "status": "proved",
   "theorems": [
    "C81_constraints",
    "C81_linear",
    "C81_step",
    "C81_unconstrained_start_refuted"
   ],
   "note": "Any constraint with affine value; C81_linear shows Linear is one. The finding is C81_unconstrained_start_refuted, with an instance."
  },
  {
   "property": "C82",
   "status": "proved",
   "theorems": [
    "C82_broyden_fit",
    "C82_may_decrease_refuted",
    "C82_refit"
   ],
   "note": "Linear algebra is a parameter assumed exact on reals; the nonvacuity examples and the finding are complete runs."
  },
  {
   "property": "C83",
   "status": "proved",
   "theorems": [
    "C83_derivatives",
    "C83_empty",
    "C83_value"
   ],
   "note": "Factors: class `tbuilt`; record `factors` of PTBuilt.v."
  },
  {
   "property": "C84",
   "status": "proved",
   "theorems": [
    "C84_eval_agrees"
   ],
   "note": "Factors: class `ebuilt`; record `efactors` of PTEval.v."
  },
  {
   "property": "C85",
   "status": "proved",
   "theorems": [
    "C85_grouping",
    "C85_grouping_eval",
    "C85_same_value"
   ],
   "note": "The value for any functions; derivatives for f1, f2 in the class `outer` (FTBuilt.v) and g in `tbuilt`."
  },
  {
   "property": "C86",
   "status": "proved",
   "theorems": [
    "C86_derivatives",
    "C86_eval",
    "C86_pmf",
    "C86_value"
   ],
   "note": "r > 0; gammaln is a parameter of the model. g in `tbuilt` (`ebuilt` for eval), without dim axes."
  },
  {
   "property": "C87",
   "status": "proved",
   "theorems": [
    "C87_drop_dim",
    "C87_expand",
    "C87_expand_dim",
    "C87_flip",
    "C87_flip_dim",
    "C87_missing_dim_refuted",
    "C87_toarray",
    "C87_transpose"
   ],
   "note": "Elements `fits` a common shape; `elements` states what each element must satisfy. The misalignment without it is proved (C87_missing_dim_refuted)."
  },
  {
   "property": "C88",
   "status": "proved",
   "theorems": [
    "C88_divisor_raises",
    "C88_minus_number",
    "C88_over_tensor",
    "C88_plus_number",
    "C88_tensor_times",
    "C88_times_number",
    "C88_times_sum",
    "C88_times_tensor",
    "C88_zero"
   ],
   "note": "Elements `fits` a common shape; formal sums non-empty where the statement says so (adding a number to an empty sum appends the bare number)."
  },
  {
   "property": "C89",
   "status": "proved",
   "theorems": [
    "C89_minus_array",
    "C89_plus_array",
    "C89_times_array",
    "C89_unabsorbed_refuted"
   ],
   "note": "Arrays with at least one axis. The failure without an element free of diagonals is proved (C89_unabsorbed_refuted)."
  },
  {
   "property": "C90",
   "status": "proved",
   "theorems": [
    "C90_one_feature_refuted",
    "C90_sum_dims"
   ],
   "note": "The sum over all features is C54_sum_formal. That a sum over one feature does nothing is proved (C90_one_feature_refuted)."
  },
  {
   "property": "C91",
   "status": "proved",
   "theorems": [
    "C91_constraint_needed",
    "C91_derivatives",
    "C91_flat_direction",
    "C91_gradient",
    "C91_likelihood",
    "C91_score",
    "C91_value",
    "C91_value_any"
   ],
   "note": "test_poisson_sum as a term of the class of C73, with any number of items; the closed-form gradient follows from the derivative theorem and the value."
  },
  {
   "property": "C92",
   "status": "proved",
   "theorems": [
    "C92_broyden_fit",
    "C92_constraint_free",
    "C92_constraint_value",
    "C92_eval",
    "C92_fit",
    "C92_multiplier_zero",
    "C92_objective"
   ],
   "note": "C80 and C81 instantiated for test_poisson_sum with any number of items and the objective and constraint rewritten as formulas; solver assumed exact when it returns, as in C80."
  }
 ]
}