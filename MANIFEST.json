{
 "claims": [
  {
   "property": "C01",
   "status": "proved",
   "theorems": [
    "C01_depends_only_on_listed_variables",
    "C01_undefined_is_listed_and_unbound",
    "C01_all_bound_never_undefined",
    "C01_missing_variable_is_error",
    "C01_zero_factor_hides_missing_variable_refuted"
   ],
   "note": "Any number type, any expression and binding. The refuted theorem shows the zero-factor exception is real."
  },
  {
   "property": "C02",
   "status": "proved",
   "theorems": [
    "C02_evaluators_agree_without_zero_factors",
    "C02_single_success_is_evaluate_success",
    "C02_both_compute_the_mathematical_value",
    "C02_denotes_is_all_parts_finite",
    "C02_binary64_refuted"
   ],
   "note": "Exact extended-real arithmetic; the exceptions of the statement are proved on binary64 for every math library."
  },
  {
   "property": "C03",
   "status": "proved",
   "theorems": [
    "C03_batch_is_pointwise",
    "C03_batch_vars_is_pointwise",
    "C03_grid_is_pointwise",
    "C03_batch_index",
    "C03_grid_index"
   ],
   "note": "Any number type, lists of any length, errors included."
  },
  {
   "property": "C04",
   "status": "proved",
   "theorems": [
    "C04_optimised_batch_agrees",
    "C04_optimised_batch_is",
    "C04_unbound_variable_refuted",
    "C04_zero_factor_refuted"
   ],
   "note": "Agreement under the stated condition, the exact behaviour otherwise, and both kinds of disagreement as witnesses."
  },
  {
   "property": "C05",
   "status": "proved",
   "theorems": [
    "C05_linear_agrees",
    "C05_polynomial_agrees_binary64",
    "C05_smart_agrees",
    "C05_smart_rounding_refuted",
    "C05_smart_infinite_point_refuted"
   ],
   "note": "Linear and smart in exact arithmetic, polynomial bit for bit on binary64; the two exceptions are witnesses on binary64."
  },
  {
   "property": "C06",
   "status": "proved",
   "theorems": [
    "C06_simplify_preserves_value",
    "C06_simplify_preserves_value_plain",
    "C06_sqrt_of_square_refuted",
    "C06_ln_of_square_refuted",
    "C06_power_of_power_refuted"
   ],
   "note": "Exact arithmetic, any expression, under the inductive side condition `safe` (implied by the syntactic `plain_powers`); three witnesses show the condition is needed. Rounding is not modelled in the positive part."
  },
  {
   "property": "C07",
   "status": "proved",
   "theorems": [
    "C07_simplify_terminates",
    "C07_simplify_adds_no_variables",
    "C07_simplify_does_not_grow"
   ],
   "note": "Any number type. Termination is shown as sufficiency of the recursion budget."
  },
  {
   "property": "C08",
   "status": "proved",
   "theorems": [
    "C08_iteration_reaches_fixed_point",
    "C08_iterations_bounded",
    "C08_single_call_idempotent_refuted"
   ],
   "note": "Any number type; idempotence of a single call is refuted."
  },
  {
   "property": "C09",
   "status": "proved",
   "theorems": [
    "C09_simplify_cached_returns_simplify",
    "C09_colliding_names_get_a_wrong_answer_refuted"
   ],
   "note": "Transition system with one step per lock operation and critical section, invariant by induction on runs. Number text is a parameter assumed injective and number-shaped; a text meeting the assumption is exhibited. The collision is a witness."
  },
  {
   "property": "C10",
   "status": "proved",
   "theorems": [
    "C10_evaluate_cached_returns_evaluate",
    "C10_colliding_names_hide_an_error_refuted"
   ],
   "note": "As C09; the debug text of the bindings is proved injective for a suitable number text."
  },
  {
   "property": "C11",
   "status": "proved",
   "theorems": [
    "C11_statistics_count_every_call",
    "C11_statistics_count_calls_since_clear",
    "C11_report_counts_calls_since_clear",
    "C11_concurrent_report_is_close",
    "C11_hit_iff_seen_since_clear",
    "C11_counters_grow_except_in_clear",
    "C11_hit_rate_is_a_ratio",
    "C11_clear_during_a_call_loses_it_refuted"
   ],
   "note": "Invariants by induction on runs; hit rate in exact arithmetic. Counters are unbounded naturals (u64/usize wraparound not modelled)."
  },
  {
   "property": "C12",
   "status": "proved",
   "theorems": [
    "C12_display_is_unambiguous",
    "C12_debug_of_bindings_is_unambiguous",
    "C12_arbitrary_names_collide_refuted",
    "C12_display_helpers_are_unambiguous"
   ],
   "note": "For any injective number-shaped text of constants; parser-based proof."
  },
  {
   "property": "C13",
   "status": "proved",
   "theorems": [
    "C13_python_denotes_the_same",
    "C13_python_computes_the_same",
    "C13_python_reading_is_unique",
    "C13_negated_base_changes_value_refuted",
    "C13_keyword_variable_is_not_python_refuted",
    "C13_infinity_becomes_a_name_refuted",
    "C13_latex_is_ambiguous_refuted",
    "C13_latex_drops_brackets_refuted",
    "C13_brackets_balance",
    "C13_display_python_is_a_lambda"
   ],
   "note": "A Python lexer and grammar are the specification. The listed exceptions are witnesses."
  },
  {
   "property": "C14",
   "status": "proved",
   "theorems": [
    "C14_variables_lists_exactly_the_occurring_names",
    "C14_variables_strictly_increasing"
   ],
   "note": "Any number type."
  },
  {
   "property": "C15",
   "status": "proved",
   "theorems": [
    "C15_evaluate_overrides_parameters",
    "C15_evaluate_single_is_one_override",
    "C15_substitution_removes_exactly_the_parameters",
    "C15_substitution_preserves_value",
    "C15_substitution_preserves_every_result",
    "C15_zero_parameter_refuted",
    "C15_simplify_preserves_value",
    "C15_simplified_variables",
    "C15_advertised_variables",
    "C15_advertised_variables_refuted"
   ],
   "note": "Lookup part for any number type, substitution in exact arithmetic, exceptions as witnesses."
  },
  {
   "property": "C16",
   "status": "proved",
   "theorems": [
    "C16_compile_with_constants",
    "C16_compiles_iff_closed",
    "C16_error_names_an_unbound_variable",
    "C16_code_computes_expression",
    "C16_never_stuck",
    "C16_custom_compiles_iff_closed",
    "C16_custom_code",
    "C16_tagless_compiles_iff_closed",
    "C16_tagless_error_names_an_unbound_variable",
    "C16_tagless_code"
   ],
   "note": "Compiler correctness against jit_value (JitSpec.v), Cranelift instructions modelled with their documented meaning on words and binary64."
  },
  {
   "property": "C17",
   "status": "proved",
   "theorems": [
    "C17_ln",
    "C17_exp",
    "C17_pow",
    "C17_sin",
    "C17_cos",
    "C17_compiled_accuracy",
    "C17_real_value_unique",
    "C17_normal_log_density",
    "C17_ln_domain_refuted",
    "C17_ln_subnormal_refuted",
    "C17_exp_zero_refuted",
    "C17_exp_range_refuted",
    "C17_exp_trap_refuted",
    "C17_pow_negative_base_refuted",
    "C17_trig_range_refuted",
    "C17_exact_operations_single",
    "C17_exact_operations",
    "C17_literal_zero_factor_refuted"
   ],
   "note": "Binary64 throughout (Flocq semantics of the four operations and square root); error bounds include coefficient, truncation and rounding errors. Exceptions are the _refuted theorems."
  },
  {
   "property": "C18",
   "status": "proved",
   "theorems": [
    "C18_slots",
    "C18_constants",
    "C18_entry_points_agree_on_shared_names_refuted",
    "C18_call_single",
    "C18_call_data_param",
    "C18_call_data_params",
    "C18_many_parameters_refuted",
    "C18_call_batch",
    "C18_batch_layout_refuted",
    "C18_no_layout_mismatch",
    "C18_tagless_calls"
   ],
   "note": "Call methods on compiled functions; exceptions are the _refuted theorems."
  },
  {
   "property": "C19",
   "status": "proved",
   "theorems": [
    "C19_none_before_compilation",
    "C19_failed_compilation_keeps_state",
    "C19_outcome_after_compilation",
    "C19_evaluation_returns_value_refuted"
   ],
   "note": "Histories of compile calls; the refuted theorem covers every history."
  },
  {
   "property": "C20",
   "status": "proved",
   "theorems": [
    "C20_round_trip",
    "C20_exact_iff",
    "C20_exact_for_short_decimals",
    "C20_sqrt_refuted",
    "C20_second_decimal_refuted",
    "C20_unbalanced_name_refuted",
    "C20_surrounding_blanks",
    "C20_optimizer_output",
    "C20_parser_total"
   ],
   "note": "ASCII white space only in trim; the egglog engine itself is abstract (optimize_with takes the extracted text). Exceptions are the _refuted theorems."
  },
  {
   "property": "C21",
   "status": "proved",
   "theorems": [
    "C21_rules_sound",
    "C21_pow_of_pow_refuted",
    "C21_ln_of_pow_refuted",
    "C21_saturation_sound",
    "C21_all_rules_sound_on_positive_powers",
    "C21_constants_stay_distinct",
    "C21_negative_base_refuted",
    "C21_undefined_term_refuted",
    "C21_binary64_reassociation_refuted"
   ],
   "note": "E-graph as the least set of represented terms and equalities closed under rules, equivalence and congruence (an over-approximation of what egglog computes in i iterations); real semantics [denotes]. Exceptions are the _refuted theorems."
  },
  {
   "property": "C22",
   "status": "proved",
   "theorems": [
    "C22_single_constants_close",
    "C22_single_constant_refuted",
    "C22_integer_constants_exact",
    "C22_integer_constant_refuted",
    "C22_direct_is_meaning",
    "C22_direct_is_evaluate",
    "C22_direct_is_evaluate_single_var",
    "C22_zero_factor_refuted",
    "C22_value_interpreters",
    "C22_named_variables_panic_refuted",
    "C22_named_variables_are_zero_refuted",
    "C22_library_functions_are_terms",
    "C22_pretty_is_display",
    "C22_pretty_injective",
    "C22_compiles",
    "C22_compiled_is_direct",
    "C22_calls_are_direct",
    "C22_entry_points",
    "C22_auto_compile",
    "C22_auto_compile_uncallable_refuted",
    "C22_logistic_softplus",
    "C22_entry_points_agree"
   ],
   "note": "A generic function is modelled as a term over its inputs (parametricity by syntax; every library function is shown to be such a term). One numeric type per expression. JIT operator semantics of ln/exp/pow/sin/cos is C16/C17. Exceptions are the _refuted theorems."
  },
  {
   "property": "C23",
   "status": "proved",
   "theorems": [
    "C23_horner",
    "C23_from_roots",
    "C23_horner_derivative",
    "C23_empty",
    "C23_any_interpreter"
   ],
   "note": "Exact real arithmetic."
  },
  {
   "property": "C24",
   "status": "proved",
   "theorems": [
    "C24_wrt_is_the_difference",
    "C24_default_base_is_the_root",
    "C24_primitive",
    "C24_relative_density_is_the_quotient",
    "C24_antisymmetric",
    "C24_antisymmetric_in_binary64",
    "C24_chain_rule",
    "C24_self_is_zero",
    "C24_self_is_zero_in_binary64",
    "C24_outside_both_supports_is_nan_refuted",
    "C24_batch_is_pointwise",
    "C24_shared_root_is_the_product"
   ],
   "note": "Exact arithmetic with infinities; antisymmetry and self-density also in binary64. The NaN case is a witness."
  },
  {
   "property": "C25",
   "status": "proved",
   "theorems": [
    "C25_sized_fields_never_take_the_shortcut",
    "C25_shortcut_needs_a_zero_sized_measure",
    "C25_zero_sized_base_depends_on_layout_refuted"
   ],
   "note": "Layout = byte offsets of the two fields, any offsets whose ranges do not overlap. The layout-dependent answer is the refuted theorem."
  },
  {
   "property": "C26",
   "status": "proved",
   "theorems": [
    "C26_memo_is_transparent",
    "C26_memo_evaluates_each_point_once",
    "C26_sloppy_eq_breaks_the_memo_refuted"
   ],
   "note": "Any call sequence, any key equality; map as association list."
  },
  {
   "property": "C27",
   "status": "proved",
   "theorems": [
    "C27_evaluate_is_the_sum_of_the_terms",
    "C27_insertion_order_is_irrelevant",
    "C27_iid_is_the_sum_over_samples",
    "C27_iid_of_no_samples_is_zero",
    "C27_iid_of_no_samples_with_infinite_parameter_term_refuted",
    "C27_partial_evaluators_rebuild_evaluate"
   ],
   "note": "Exact arithmetic with infinities and NaN; no finiteness hypotheses except for the empty sample list."
  },
  {
   "property": "C28",
   "status": "proved",
   "theorems": [
    "C28_joint_is_the_sum",
    "C28_empty_collection",
    "C28_order_is_irrelevant",
    "C28_collections_concatenate",
    "C28_continuous_families",
    "C28_discrete_families",
    "C28_log_density_iid",
    "C28_standard_api",
    "C28_relative_collections",
    "C28_support",
    "C28_fallback",
    "C28_fallback_agrees",
    "C28_closure_offset",
    "C28_closure_correct_for_one_sample",
    "C28_closure_refuted",
    "C28_negative_binomial_collection",
    "C28_poisson_collection",
    "C28_categorical_collection",
    "C28_categorical_outside",
    "C28_categorical_outside_refuted"
   ],
   "note": "Exact arithmetic with infinities; the closure offset is proved exactly and refuted as an agreement."
  },
  {
   "property": "C29",
   "status": "proved",
   "theorems": [
    "C29_closure_is_the_default_density",
    "C29_normal",
    "C29_standard_normal",
    "C29_exponential",
    "C29_exponential_family_path_offset",
    "C29_exponential_paths_agree_refuted",
    "C29_gamma",
    "C29_beta",
    "C29_chi_squared",
    "C29_chi_squared_is_gamma",
    "C29_student_t",
    "C29_cauchy",
    "C29_bernoulli",
    "C29_bernoulli_certain_refuted",
    "C29_binomial",
    "C29_binomial_paths_agree_refuted",
    "C29_poisson",
    "C29_poisson_family_path",
    "C29_geometric",
    "C29_geometric_paths_agree_refuted",
    "C29_geometric_certain_refuted",
    "C29_negative_binomial",
    "C29_negative_binomial_paths_agree_refuted",
    "C29_categorical",
    "C29_categorical_zero_refuted",
    "C29_closure_relative",
    "C29_normal_relative_to_normal"
   ],
   "note": "Exact arithmetic over R with infinities; the wrong paths are proved to be off by the exact amount and refuted as agreements."
  },
  {
   "property": "C30",
   "status": "proved",
   "theorems": [
    "C30_normal",
    "C30_normal_converse",
    "C30_exponential",
    "C30_exponential_converse",
    "C30_gamma",
    "C30_gamma_converse",
    "C30_beta",
    "C30_beta_converse",
    "C30_chi_squared",
    "C30_chi_squared_converse",
    "C30_bernoulli",
    "C30_bernoulli_converse",
    "C30_poisson",
    "C30_poisson_converse",
    "C30_geometric",
    "C30_geometric_converse",
    "C30_categorical",
    "C30_categorical_converse",
    "C30_binomial_families_refuted",
    "C30_geometric_certain_refuted"
   ],
   "note": "Exact arithmetic; exceptions are refuted theorems."
  },
  {
   "property": "C31",
   "status": "proved",
   "theorems": [
    "C31_bernoulli",
    "C31_bernoulli_family",
    "C31_poisson",
    "C31_poisson_family",
    "C31_geometric",
    "C31_geometric_certain_refuted",
    "C31_geometric_family_total",
    "C31_geometric_family_refuted",
    "C31_categorical",
    "C31_categorical_family",
    "C31_binomial_family",
    "C31_binomial_direct",
    "C31_binomial_direct_refuted",
    "C31_negative_binomial_direct",
    "C31_negative_binomial_direct_refuted",
    "C31_negative_binomial_family_total",
    "C31_negative_binomial_family_refuted"
   ],
   "note": "Exact arithmetic; infinite_sum over all naturals. lg_factorial (log-gamma at integers) is assumed where the code calls log-gamma."
  },
  {
   "property": "C32",
   "status": "proved",
   "theorems": [
    "C32_normal",
    "C32_standard_normal",
    "C32_exponential",
    "C32_exponential_family_total",
    "C32_exponential_family_refuted",
    "C32_gamma",
    "C32_beta",
    "C32_chi_squared",
    "C32_student_t",
    "C32_cauchy",
    "C32_log_gamma_exists"
   ],
   "note": "Improper Riemann integrals (IntSpec.v). Gamma/Beta/Chi/Student assume only that exp(lg a) is Euler's integral for a > 0; existence of such lg is proved. Gaussian integral, Beta = Gamma*Gamma/Gamma (Bohr-Mollerup) and Gamma(1/2) are proved, not assumed."
  },
  {
   "property": "C33",
   "status": "proved",
   "theorems": [
    "C33_outside_the_support_direct",
    "C33_supported_everywhere",
    "C33_supports",
    "C33_positive_inside",
    "C33_outside_on_the_family_path",
    "C33_family_path_ignores_the_support_refuted",
    "C33_boundary_parameters_refuted"
   ],
   "note": "Exact arithmetic; the direct-path half in every arithmetic."
  },
  {
   "property": "C34",
   "status": "proved",
   "theorems": [
    "C34_constructors",
    "C34_constructors_in_binary64",
    "C34_parameters_are_kept",
    "C34_categorical",
    "C34_uniform_categorical",
    "C34_mixture",
    "C34_uniform_mixture",
    "C34_invalid_parameters_accepted_refuted",
    "C34_negative_weights_accepted_refuted",
    "C34_gamma_from_shape_scale",
    "C34_gamma_zero_scale_accepted_refuted"
   ],
   "note": "Constructors both in exact arithmetic with infinities and in binary64."
  },
  {
   "property": "C35",
   "status": "proved",
   "theorems": [
    "C35_normal",
    "C35_exponential",
    "C35_gamma",
    "C35_beta",
    "C35_chi_squared",
    "C35_bernoulli",
    "C35_geometric",
    "C35_categorical",
    "C35_binomial_family",
    "C35_poisson",
    "C35_negative_binomial_textbook",
    "C35_negative_binomial_own_mean",
    "C35_negative_binomial_refuted",
    "C35_binomial_direct_refuted"
   ],
   "note": "Discrete: infinite sums. Continuous: improper integrals over the support."
  },
  {
   "property": "C36",
   "status": "proved",
   "theorems": [
    "C36_joint_density",
    "C36_joint_log_density_support_root",
    "C36_mass_of_a_rectangle",
    "C36_relative_densities_add",
    "C36_nesting_is_associative"
   ],
   "note": "Exact arithmetic with infinities; the formulas for log-density, support and root in every arithmetic."
  },
  {
   "property": "C37",
   "status": "proved",
   "theorems": [
    "C37_weighted",
    "C37_weights_compose",
    "C37_integral",
    "C37_support_and_root_unchanged",
    "C37_relative_to_the_base",
    "C37_mass_is_scaled",
    "C37_dirac"
   ],
   "note": "Exact arithmetic with infinities."
  },
  {
   "property": "C38",
   "status": "proved",
   "theorems": [
    "C38_density",
    "C38_minus_infinity",
    "C38_order_is_irrelevant",
    "C38_support",
    "C38_normalised",
    "C38_interval_mass",
    "C38_root",
    "C38_two_components",
    "C38_uniform_is_the_average",
    "C38_uniform_of_two",
    "C38_special_values_refuted"
   ],
   "note": "Exact arithmetic; sums over all naturals as infinite_sum, interval masses as Riemann integrals (Coquelicot)."
  },
  {
   "property": "C39",
   "status": "proved",
   "theorems": [
    "C39_interval_mass",
    "C39_log",
    "C39_exp",
    "C39_linear",
    "C39_logit",
    "C39_density",
    "C39_outside_the_image_refuted"
   ],
   "note": "Exact arithmetic; Riemann integrals over bounded intervals, continuous base density."
  },
  {
   "property": "C40",
   "status": "proved",
   "theorems": [
    "C40_factorial",
    "C40_binomial_coefficient",
    "C40_negative_binomial_coefficient",
    "C40_poisson_family_path_close"
   ],
   "note": "Exact arithmetic on the literals as written. Table by certified integer bounds (atanh series), Stirling branch by telescoping with the Wallis limit. lg_factorial: log-gamma at positive integers."
  },
  {
   "property": "C41",
   "status": "proved",
   "theorems": [
    "C41_normal_log_pdf_is_log_of_normal_density",
    "C41_gaussian_kernel_is_unnormalised_normal",
    "C41_polynomial_is_sum_of_powers",
    "C41_logistic_and_softplus",
    "C41_expr_builders"
   ],
   "note": "Exact arithmetic."
  },
  {
   "property": "C42",
   "status": "proved",
   "theorems": [
    "C42_normal_likelihood_and_prior",
    "C42_posterior_is_sum",
    "C42_hierarchical_normal",
    "C42_tau_is_not_the_deviation_of_mu_refuted",
    "C42_mixture_is_log_of_weighted_sum",
    "C42_mixture_of_expressions",
    "C42_mixture_edge_cases",
    "C42_all_zero_weights_is_error_refuted"
   ],
   "note": "Exact arithmetic; two exceptions as witnesses."
  },
  {
   "property": "C43",
   "status": "proved",
   "theorems": [
    "C43_patterns",
    "C43_distribution_eval",
    "C43_log_gamma_stirling",
    "C43_log_gamma",
    "C43_gamma_density",
    "C43_exponential_support_refuted",
    "C43_poisson_refuted",
    "C43_special_functions_panic_refuted",
    "C43_distribution_interface_panics_refuted"
   ],
   "note": "Exact real arithmetic; ln_gamma an arbitrary function, for C43_log_gamma_stirling equal to ln of the factorial at integers. Exceptions are the _refuted theorems."
  },
  {
   "property": "C44",
   "status": "proved",
   "theorems": [
    "C44_register_then_get",
    "C44_registered_type_compiles",
    "C44_auto_jit_never_succeeds_refuted"
   ],
   "note": "Registry as an association list; compiler and patterns abstract."
  },
  {
   "property": "C45",
   "status": "proved",
   "theorems": [
    "C45_value_is_right",
    "C45_gradient_is_the_value_refuted"
   ],
   "note": "The statement records the defect; proved for any AD number type."
  },
  {
   "property": "C46",
   "status": "proved",
   "theorems": [
    "C46_integers_up_to_2_53_survive",
    "C46_integer_to_float_is_exact_up_to_2_53",
    "C46_f64_is_preserved",
    "C46_f32_is_preserved",
    "C46_float_to_integer_truncates",
    "C46_f64_to_f32_rounds_to_nearest",
    "C46_integer_to_float_rounds_to_nearest",
    "C46_constant_fallbacks",
    "C46_errors_name_the_failing_step",
    "C46_large_integers_are_changed_refuted"
   ],
   "note": "num-traits' conversions are modelled from their documentation; binary64/binary32 exactness through Flocq."
  },
  {
   "property": "C47",
   "status": "proved",
   "theorems": [
    "C47_dot_is_the_sum_of_products",
    "C47_dot_is_symmetric_and_linear",
    "C47_dot_of_a_difference",
    "C47_sums_are_componentwise",
    "C47_mismatched_lengths_are_truncated_refuted"
   ],
   "note": "Exact arithmetic; truncation is the refuted theorem."
  },
  {
   "property": "C48",
   "status": "proved",
   "theorems": [
    "C48_lookup_is_last_definition",
    "C48_evaluation_order_stays_empty",
    "C48_last_call_meaning"
   ],
   "note": "Any sequence of calls."
  },
  {
   "property": "C49",
   "status": "proved",
   "theorems": [
    "C49_transform_is_affine",
    "C49_shapes_are_checked",
    "C49_reported_log_determinant",
    "C49_log_determinant_refuted",
    "C49_componentwise",
    "C49_componentwise_log_determinant_refuted"
   ],
   "note": "conv is any entry conversion fixing 0; the determinant is compared on diagonal matrices."
  },
  {
   "property": "C50",
   "status": "proved",
   "theorems": [
    "C50_binary_and_unary_operators",
    "C50_mixed_with_numbers",
    "C50_functions",
    "C50_conversions",
    "C50_abs_overflows_refuted"
   ],
   "note": "Any number type for the operators; abs in exact arithmetic, its overflow as a binary64 witness."
  },
  {
   "property": "C51",
   "status": "proved",
   "theorems": [
    "C51_no_deadlock",
    "C51_calls_end",
    "C51_all_calls_can_finish",
    "C51_one_answer_per_call",
    "C51_mutual_exclusion"
   ],
   "note": "Lock-ownership invariant, wait-for argument (statistics lock is always last), decreasing rank. Mutex poisoning is not modelled: nothing panics under a lock."
  },
  {
   "property": "C52",
   "status": "proved",
   "theorems": [
    "C52_dot_product",
    "C52_length_mismatch",
    "C52_array_truncates_refuted",
    "C52_sum_stats",
    "C52_sum_stats_panics",
    "C52_iid_is_sum",
    "C52_log_sum_exp",
    "C52_log_sum_exp_overflow_refuted"
   ],
   "note": "Exact real arithmetic except the overflow theorem (binary64, any libm whose exp overflows at 1000)."
  },
  {
   "property": "C53",
   "status": "proved",
   "theorems": [
    "C53_evaluate",
    "C53_evaluate_single",
    "C53_compiled_agreement",
    "C53_rounded_library"
   ],
   "note": "The library assumption libm_ok is met by a correctly rounding library (C53_rounded_library); libm itself is not modelled."
  },
  {
   "property": "C54",
   "status": "proved",
   "theorems": [
    "C54_sum",
    "C54_dot",
    "C54_linear_map",
    "C54_horner",
    "C54_log_sum_exp"
   ],
   "note": "F64 semantics; bounds include underflow allowance 2^-1000."
  },
  {
   "property": "C55",
   "status": "proved",
   "theorems": [
    "C55_normal",
    "C55_exponential",
    "C55_gamma",
    "C55_beta",
    "C55_chi_squared",
    "C55_student_t",
    "C55_cauchy",
    "C55_bernoulli",
    "C55_binomial_kernel",
    "C55_negative_binomial_kernel",
    "C55_poisson",
    "C55_geometric",
    "C55_categorical",
    "C55_normal_sample"
   ],
   "note": "F64 semantics; Beta and StudentT are stated for parameters whose sum entering log-gamma is exact, since a perturbed argument of log-gamma is not controlled by the library's accuracy."
  },
  {
   "property": "C56",
   "status": "proved",
   "theorems": [
    "C56_evaluate",
    "C56_evaluate_single",
    "C56_compiles_iff_data_variable_first",
    "C56_two_unknown_names_fail",
    "C56_compiled_exact",
    "C56_compiled_accuracy",
    "C56_parameter_sorts_first_refuted",
    "C56_closed_density_refuted",
    "C56_simplified_does_not_compile_refuted",
    "C56_simplified_evaluates",
    "C56_simplified_evaluates_single"
   ],
   "note": "Exceptions are the _refuted theorems."
  },
  {
   "property": "C57",
   "status": "proved",
   "theorems": [
    "C57_counts",
    "C57_compile_statistics",
    "C57_tagless_statistics",
    "C57_instruction_count_arithmetic",
    "C57_instruction_count_refuted",
    "C57_speedup",
    "C57_speedup_monotone",
    "C57_reported_speedups"
   ],
   "note": "Code size and compilation time are not modelled. Exception: C57_instruction_count_refuted."
  },
  {
   "property": "C58",
   "status": "proved",
   "theorems": [
    "C58_simplify_keeps_the_rounded_value",
    "C58_simplify_keeps_the_rounded_value_calm",
    "C58_rounded_library",
    "C58_ln_of_exp_refuted"
   ],
   "note": "Annex F special values of libm are hypotheses; shown to hold of a correctly rounded library. Exception: C58_ln_of_exp_refuted."
  },
  {
   "property": "C59",
   "status": "proved",
   "theorems": [
    "C59_weighted",
    "C59_integral",
    "C59_product",
    "C59_relative_density",
    "C59_mixture",
    "C59_weights_accepted",
    "C59_weights_refused",
    "C59_uniform_accepted",
    "C59_pair_accepted",
    "C59_pushforward",
    "C59_linear",
    "C59_linear_round_trip",
    "C59_lognormal",
    "C59_logit",
    "C59_logit_overflow_refuted"
   ],
   "note": "Accuracy of libm is a hypothesis (libm_ok), shown to hold of a correctly rounded library. Exception: C59_logit_overflow_refuted."
  },
  {
   "property": "C60",
   "status": "proved",
   "theorems": [
    "C60_normal",
    "C60_normal_cancellation_refuted",
    "C60_normal_paths_agree",
    "C60_compiled_normal",
    "C60_normal_decomposition",
    "C60_standard_normal",
    "C60_exponential",
    "C60_compiled_exponential",
    "C60_gamma",
    "C60_beta",
    "C60_chi_squared",
    "C60_bernoulli",
    "C60_binomial",
    "C60_poisson",
    "C60_geometric",
    "C60_negative_binomial",
    "C60_categorical"
   ],
   "note": "Accuracy of libm is a hypothesis (libm_ok), shown to hold of a correctly rounded library. The targets are the exact values of the modelled paths, including the offsets established as defects in C29 (exponential, geometric, negative binomial). Exception: C60_normal_cancellation_refuted."
  },
  {
   "property": "C61",
   "status": "proved",
   "theorems": [
    "C61_factorial",
    "C61_binomial_coefficient",
    "C61_negative_binomial_coefficient"
   ],
   "note": "Accuracy of libm is a hypothesis (libm_ok). The coefficient measures also assume that the library's log-gamma approximates a function equal to ln (n-1)! at the integers."
  },
  {
   "property": "C62",
   "status": "proved",
   "theorems": [
    "C62_exponential_exact",
    "C62_normal",
    "C62_gamma",
    "C62_beta",
    "C62_chi_squared",
    "C62_small_shapes_refuted",
    "C62_small_degrees_refuted",
    "C62_bernoulli",
    "C62_bernoulli_from_natural",
    "C62_overflow_refuted",
    "C62_poisson",
    "C62_poisson_from_natural",
    "C62_poisson_extremes_refuted",
    "C62_geometric",
    "C62_geometric_small_refuted",
    "C62_categorical_accepts",
    "C62_categorical_rejects",
    "C62_uniform",
    "C62_categorical_from_natural",
    "C62_categorical"
   ],
   "note": "Accuracy of libm is a hypothesis (libm_ok), shown to hold of a correctly rounded library (PropsRound). Exceptions: C62_small_shapes_refuted, C62_small_degrees_refuted, C62_overflow_refuted, C62_poisson_extremes_refuted, C62_geometric_small_refuted."
  },
  {
   "property": "C63",
   "status": "proved",
   "theorems": [
    "C63_bernoulli",
    "C63_binomial",
    "C63_poisson",
    "C63_normal",
    "C63_standard_normal",
    "C63_gamma",
    "C63_chi_squared",
    "C63_beta",
    "C63_categorical",
    "C63_exponential_refuted",
    "C63_geometric_refuted",
    "C63_negative_binomial_refuted",
    "C63_density_from_parts",
    "C63_categorical_override"
   ],
   "note": "Log-gamma is an arbitrary function, so nothing is said about derivatives along the parameters of ln x and ln (1 - x) in gamma, chi-squared and beta. Exceptions: C63_exponential_refuted, C63_geometric_refuted, C63_negative_binomial_refuted."
  },
  {
   "property": "C64",
   "status": "proved",
   "theorems": [
    "C64_continuous_families",
    "C64_family_paths",
    "C64_discrete_families",
    "C64_categorical",
    "C64_iid_continuous",
    "C64_iid_discrete",
    "C64_iid_fallback",
    "C64_mixture",
    "C64_zero_weight_refuted",
    "C64_every_generic_program",
    "C64_polynomials",
    "C64_normal_score",
    "C64_helper_drops_the_tangent_refuted"
   ],
   "note": "Dual numbers are the textbook type over extended reals; the AD crate is outside the repository. Log-gamma's derivative is a hypothesis (digamma_of). Exceptions: C64_zero_weight_refuted, C64_helper_drops_the_tangent_refuted."
  },
  {
   "property": "C65",
   "status": "proved",
   "theorems": [
    "C65_continuous_distributions",
    "C65_discrete_distributions",
    "C65_log_density_at",
    "C65_relative_log_density",
    "C65_shared_root_and_batches",
    "C65_distributions_have_positive_size",
    "C65_family_markers"
   ],
   "note": "Exact arithmetic; support boundary parameters (p = 0 or 1, zero weights) are in C29/C30."
  },
  {
   "property": "C66",
   "status": "proved",
   "theorems": [
    "C66_defaults_pass_their_constructors",
    "C66_standard_normal",
    "C66_standard_normal_from_natural_ignores_its_argument_refuted",
    "C66_gamma_chi_squared_exponential",
    "C66_gamma_exponential_at_zero_refuted",
    "C66_beta_and_student",
    "C66_counts",
    "C66_two_categories_are_a_coin",
    "C66_sequence_of_flips",
    "C66_parameter_accessors",
    "C66_odds_accessors",
    "C66_location_and_scale",
    "C66_mirror_images",
    "C66_symmetries_in_binary64"
   ],
   "note": "Hypothesis lg_is_log_gamma (met: C32_log_gamma_exists). Exceptions: C66_gamma_exponential_at_zero_refuted, C66_standard_normal_from_natural_ignores_its_argument_refuted."
  },
  {
   "property": "C67",
   "status": "proved",
   "theorems": [
    "C67_beta_prior",
    "C67_gamma_prior",
    "C67_exponential_family_joint_refuted",
    "C67_normal_mean",
    "C67_symbolic_posterior",
    "C67_constant_is_the_log_marginal_likelihood"
   ],
   "note": "Exact arithmetic; posterior formulas in ConjSpec.v. Exception: C67_exponential_family_joint_refuted."
  },
  {
   "property": "C68",
   "status": "proved",
   "theorems": [
    "C68_latex_denotes_the_same",
    "C68_latex_reading_is_unique",
    "C68_missing_brackets_change_the_value_refuted",
    "C68_double_superscript_refuted",
    "C68_variable_e_refuted"
   ],
   "note": "A lexer and recursive-descent reader for math-mode formulas (LatexSpec) is part of the statement; the exported text is proved to be read as a tree of the same value. The conditions under which brackets are unneeded are explicit, with refutations outside them."
  },
  {
   "property": "C69",
   "status": "proved",
   "theorems": [
    "C69_constant_is_nearest",
    "C69_f64_constant_kept",
    "C69_integer_constant",
    "C69_panics_exactly_on_other_text",
    "C69_f32_constant_refuted",
    "C69_optimizer_reads_any_numerals"
   ],
   "note": "Reading is modelled character by character; numerals, their values and nearest numbers are specified over the reals (ParseSpec). Display is a relation: any numeral whose nearest number is the displayed one. Both directions: every numeral is read as the nearest number, and every accepted text is a numeral, inf, infinity or nan."
  },
  {
   "property": "C70",
   "status": "proved",
   "theorems": [
    "C70_normal",
    "C70_cauchy",
    "C70_student",
    "C70_normal_family",
    "C70_normal_paths_agree",
    "C70_normal_cancellation_refuted",
    "C70_exponential_family",
    "C70_gamma_family",
    "C70_beta_family",
    "C70_poisson_family",
    "C70_bernoulli_family",
    "C70_geometric_family",
    "C70_standard_normal_family",
    "C70_chi_squared_family",
    "C70_binomial_family",
    "C70_negative_binomial_family",
    "C70_categorical_family"
   ],
   "note": "Induction on the sample for the accumulated sums (one unit per addition); the sample-size multiplication, the statistics and the partition are bounded as in C55 and C60. Cancellation is proved for every sample size by exact dyadic arithmetic."
  },
  {
   "property": "C71",
   "status": "proved",
   "theorems": [
    "C71_traps_exactly",
    "C71_plain_never_traps",
    "C71_exp_traps_exactly",
    "C71_pow_returns",
    "C71_pow_undefined_exponent_traps",
    "C71_normal_never_traps",
    "C71_exp_wraps",
    "C71_exp_negative",
    "C71_exp_out_of_range_negative",
    "C71_ln_always_finite",
    "C71_ln_ignores_sign",
    "C71_ln_subnormal",
    "C71_pow_ignores_sign",
    "C71_sin_leaves_range",
    "C71_cos_leaves_range"
   ],
   "note": "Structural induction for the trap characterisation; monotonicity of rounding and the neighbours of the two threshold numbers for exactness; exact exponent-field arithmetic modulo 2^64 for the wrap-around; the rounding-error calculus for sine and cosine."
  },
  {
   "property": "C72",
   "status": "proved",
   "theorems": [
    "C72_widen",
    "C72_narrow",
    "C72_library",
    "C72_rounded_library",
    "C72_arithmetic",
    "C72_literals",
    "C72_functions",
    "C72_other_operations",
    "C72_constructors",
    "C72_outside",
    "C72_normal",
    "C72_exponential",
    "C72_gamma",
    "C72_beta",
    "C72_chi_squared",
    "C72_cauchy",
    "C72_student_t",
    "C72_bernoulli",
    "C72_binomial_kernel",
    "C72_negative_binomial_kernel",
    "C72_poisson",
    "C72_geometric",
    "C72_categorical",
    "C72_binomial_coefficient",
    "C72_negative_binomial_coefficient",
    "C72_beta_partition",
    "C72_normal_agreement",
    "C72_cauchy_agreement",
    "C72_categorical_accepts",
    "C72_mixture_accepts",
    "C72_uniform_powers",
    "C72_uniform_refuted"
   ],
   "note": "The generic model instantiated at binary32 (F32), with the code that works in f64 and converts modelled as such; the error calculus of C53-C55 redone at precision 24; widening is exact and narrowing rounds once; 1 has no f32 neighbour within the tolerance. The panic of uniform(10) is C72_uniform_refuted."
  },
  {
   "property": "C73",
   "status": "proved",
   "theorems": [
    "C73_normal",
    "C73_normal_cancellation_refuted",
    "C73_normal_paths_agree",
    "C73_compiled_normal",
    "C73_normal_decomposition",
    "C73_standard_normal",
    "C73_exponential",
    "C73_compiled_exponential",
    "C73_gamma",
    "C73_beta",
    "C73_chi_squared",
    "C73_bernoulli",
    "C73_binomial",
    "C73_poisson",
    "C73_geometric",
    "C73_negative_binomial",
    "C73_categorical",
    "C73_factorial",
    "C73_binomial_measure",
    "C73_mixed_structure"
   ],
   "note": "The generic family model at F32; beta partition and binomial-type base measures, which the code computes in f64, modelled with both precisions. Error bounds composed from the binary32 calculus of C72. The cancellation at 2^14 is C73_normal_cancellation_refuted."
  },
  {
   "property": "C74",
   "status": "proved",
   "theorems": [
    "C74_normal",
    "C74_standard_normal",
    "C74_exponential",
    "C74_cauchy",
    "C74_poisson",
    "C74_log_gamma",
    "C74_gamma",
    "C74_logistic",
    "C74_softplus",
    "C74_softplus_left_refuted",
    "C74_softplus_overflow_refuted",
    "C74_log_sum_exp",
    "C74_log_sum_exp_short",
    "C74_from_roots",
    "C74_dot_product",
    "C74_exp_fam_log_density",
    "C74_iid_log_density"
   ],
   "note": "The generic programs instantiated with DirectEval at F64; error bounds composed from the binary64 calculus of C55; Stirling's bound of C43. Defects: C74_softplus_left_refuted, C74_softplus_overflow_refuted."
  },
  {
   "property": "C75",
   "status": "proved",
   "theorems": [
    "C75_construction",
    "C75_not_square",
    "C75_density",
    "C75_positive_definite",
    "C75_mode",
    "C75_independent",
    "C75_standard",
    "C75_round_trip",
    "C75_wrong_length",
    "C75_negative_determinant",
    "C75_symmetry_unchecked_refuted",
    "C75_definiteness_unchecked_refuted"
   ],
   "note": "nalgebra's inverse and determinant are parameters; the determinant of the specification is the Laplace expansion. Defects: C75_negative_determinant, C75_symmetry_unchecked_refuted, C75_definiteness_unchecked_refuted."
  },
  {
   "property": "C76",
   "status": "proved",
   "theorems": [
    "C76_location_scale",
    "C76_exponential",
    "C76_gamma",
    "C76_chi_squared",
    "C76_beta",
    "C76_student_t",
    "C76_bernoulli_and_categorical",
    "C76_counts",
    "C76_poisson",
    "C76_samples",
    "C76_log_sum_exp",
    "C76_mixture",
    "C76_mixture_nan_refuted",
    "C76_pushforward",
    "C76_pushforward_ends_refuted",
    "C76_product_and_weighted",
    "C76_nan",
    "C76_plus_infinity_refuted",
    "C76_early_overflow_refuted",
    "C76_standard_normal",
    "C76_family_infinity_refuted",
    "C76_family_scale_refuted",
    "C76_static_inline",
    "C76_static_inline_scale_refuted",
    "C76_single_location_scale",
    "C76_single_exponential",
    "C76_single_gamma",
    "C76_single_chi_squared",
    "C76_single_beta",
    "C76_single_student_t",
    "C76_single_counts",
    "C76_single_poisson",
    "C76_single_samples",
    "C76_single_log_sum_exp",
    "C76_single_mixture",
    "C76_single_plus_infinity_refuted",
    "C76_single_early_overflow_refuted"
   ],
   "note": "Gamma-function shapes are limited to the stated ranges, where the library's log-gamma cannot overflow. Defects: C76_plus_infinity_refuted, C76_early_overflow_refuted, C76_family_infinity_refuted, C76_family_scale_refuted."
  },
  {
   "property": "C77",
   "status": "proved",
   "theorems": [
    "C77_normal",
    "C77_normal_mode_and_symmetry",
    "C77_exponential",
    "C77_static_inline",
    "C77_cauchy",
    "C77_student_t",
    "C77_geometric",
    "C77_gamma",
    "C77_chi_squared",
    "C77_bernoulli",
    "C77_categorical",
    "C77_samples",
    "C77_discrete_samples",
    "C77_family_refuted",
    "C77_single_normal",
    "C77_single_exponential",
    "C77_single_cauchy",
    "C77_single_samples",
    "C77_single_bernoulli",
    "C77_single_categorical",
    "C77_single_discrete_samples",
    "C77_single_geometric",
    "C77_single_gamma",
    "C77_single_chi_squared",
    "C77_single_student_t"
   ],
   "note": "Direct log-densities and static inline functions. Defect: C77_family_refuted."
  }
 ]
}