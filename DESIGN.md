# Formal model of cscherrer/measures: design

## Numbers

All numeric code is modelled once, over a plain record `Num` of operations
(`theories/Num.v`): zero, one, literals, + - * / neg, powf, ln, exp, sqrt, sin,
cos, abs, floor, comparisons (`eqb`, `ltb`, `leb`: IEEE style, so NaN is unequal to
everything), infinities, NaN, integer conversion, and the external `ln_gamma`.
Three instances are used (and dual numbers for C64).

* `XR` - exact extended reals: `Fin r | PInf | NInf | NaN`. This is IEEE-754
  without rounding, without overflow and without the sign of zero. Mathematical
  laws are proved here. It uses the standard library's real-number axioms.
* `F64` - binary64 from the standard library's `Coq.Floats.SpecFloat`
  (pure integer computation, no axioms; NaN payloads are not represented).
  Correctly rounded + - * / sqrt and comparisons are computed; `ln`, `exp`,
  `powf`, `sin`, `cos`, `ln_gamma` are *parameters* (libm is not modelled), so a
  theorem about `F64` holds for every libm. Refutations about rounding, signs of
  zero, infinities and the JIT's bit tricks are proved here by computation.
* `F32` - binary32 in the same way (`theories/SingleModel.v`); code that converts to
  `f64`, computes there and converts back is modelled with both precisions.

Theorems that do not depend on numbers (structure, caches, printing, code
generation) are stated for every `Num`.

## Shape of the development

`*Model.v` files hold only definitions, each with a `(* file:lines *)`
citation. Proof files import them. `*Spec.v` files hold the vocabulary of the statements, independent of
the models' helpers. `Props*.v` hold only
`Theorem ... exact ... Print Assumptions`. A property the faithful model violates
gets a theorem with suffix `_refuted` (an explicit witness), next to the largest
true statement found. Partial results have the suffix `_partial`.

Panics are explicit (`option`/`result` values). Interleavings of the cache
functions are modelled as a small-step machine whose atomic steps are the code's
individual mutex sections.

## Plan per property

| id | model | proof |
|----|-------|-------|
| C01 | `Expr`, `evaluate` over association-list bindings | induction on expressions |
| C02 | `evaluate_single_var` | induction, exact arithmetic; refutation for f64/zero shortcut |
| C03 | batch/grid as monadic maps | induction on lists |
| C04 | `evaluate_batch_optimized` | equality under the guard, refutation without |
| C05 | polynomial/linear/smart | induction, XR; refutation for infinities |
| C06 | `simplify` (literal match order) | soundness by induction under explicit side conditions; refutations |
| C07 | same | induction with size measure |
| C08 | same | refutation; idempotence on a fragment |
| C09,C10,C11 | cache machine: threads with program counters over lock sections | invariant over all reachable states; refutation by key collision |
| C12,C13 | printers as string functions; Python reader | injectivity by prefix-code argument; refutations |
| C14 | `variables` = sort+dedup | sortedness lemmas |
| C15 | `SymbolicLogDensity` | substitution lemma by induction |
| C16 | SSA code generator and machine | compiler correctness by induction |
| C17 | emitted ln/exp/pow/sin/cos sequences on binary64 bits | certified polynomial bounds (mean value theorem, checked fixed-point enclosures), checked rounding-error analysis, bit-level lemmas for exponent extraction and scaling; a compositional error semantics for whole expressions; refutations by computation |
| C18,C19 | signatures, call methods, compiled arity | case analysis on list lengths; refutations |
| C20 | printer/parser of egglog text | parser-printer round trip by induction; refutation on constants, sqrt |
| C21 | rules as pairs of patterns | per-rule real analysis; refutation/inconsistency derivation |
| C22,C23,C43,C52 | MathExpr as a record of operations; interpreters; library functions generic in the record | induction on a deep syntax of generic functions; Horner lemmas; derivative; pretty-print by prefix-code argument; Stirling bound |
| C24,C25,C26 | `LogDensity` with explicit field addresses; memo table | algebra on XR; invariant over call sequences |
| C27,C28 | decomposition, IID | sums over lists |
| C29,C30,C33,C34,C35 | every distribution file | real algebra per family; refutations |
| C31,C32 | same | finite/infinite series, improper integrals |
| C36,C37,C38,C39 | combinators | algebra, log-sum-exp lemma, derivatives, substitution in integrals |
| C40 | factorial table, Stirling, coefficients (ln_gamma assumed = ln of factorial at integers) | interval arguments; telescoping |
| C41,C42 | builders | evaluation lemmas |
| C44,C46,C47,C48,C49,C50 | small models | direct |
| C45 | `value_and_grad` | refutation |
| C51 | the cache machine of C09-C11 | progress by case analysis on program counters; a step-counting measure |
| C53,C54,C55 | the same evaluators, sums and log-densities at `F64` | forward error analysis over Flocq's rounding; an error calculus closed under + - * / and library calls |
| C56,C57 | custom densities on top of the code generator; statistics as tree counts, the speedup formula at binary64 | sortedness of the name list; induction on trees; monotone rounding |
| C58 | the simplifier of C05 at `F64` | a relation "same value, possibly other sign of zero" kept by every rule; converse-overflow lemmas |
| C59 | the combinators of C36-C39 at `F64` | the error calculus of C53-C55; log-sum-exp is 1-Lipschitz; case library that overflows |
| C60 | `ef_density` of every family, precomputed densities and the normal decomposition at `F64` | the error calculus; exp turns the absolute error of a logit into a relative one; concrete run for the cancellation |
| C61 | `log_factorial` (table and Stirling), coefficient measures at `F64` | table entries by computation, series term by term with the error calculus, remainder from C40 |
| C62 | `to_natural` and `from_natural` of every family at `F64` | the error calculus, sign and size of each intermediate, exact evaluation of absorbed terms for the panics |
| C63 | `to_natural`, `log_partition`, `mean`, `variance` of every family, `compute_exp_fam_log_density` over extended reals | textbook partition functions in `CumSpec`, Coquelicot derivatives, evaluation at the reported natural parameters |
| C64 | every generic log-density, IID sum, mixture and evaluator program instantiated at dual numbers (`DualModel`) | a dual result tracks a locally finite function and its derivative; one lemma per operation, induction over programs and lists |
| C65 | every distribution packaged as a measure, `LogDensity`, shared roots and batches over extended reals | a textbook density and its support determine the answers; one lemma per distribution, then case analysis on the two supports |
| C66 | `Default` of every distribution (`DefaultModel`), the same densities, pushforwards | evaluation; equality of operator trees; sign-symmetry of rounding for the bit-for-bit claims |
| C67 | priors, IID sums and the symbolic builders over extended reals | textbook updates in `ConjSpec`; algebra of logarithms, induction over the sample, integral of prior times likelihood |
| C68 | `to_latex` over extended reals | a lexer and recursive-descent reader of formulas in `LatexSpec`; sums and products flattened to lists, induction on expressions |
| C69 | `jit_constant`, `parse_f64`, `egglog_to_expr` | numerals and their real values in `ParseSpec`; induction on digit lists, inversion of the reader, Flocq's correctness of division for the rounding |
| C70 | the `*_log_density_iid` functions of normal, Cauchy and Student, `compute_iid` of the families, at binary64 | induction on the sample with the error calculus of C54/C55; exact dyadic arithmetic for the cancellation |
| C71 | the compiled-expression semantics of C16 and the emitted exp, ln, pow, sin, cos of C17, on every operand | induction over sub-expressions; monotone rounding between neighbouring numbers; exponent-field arithmetic; error calculus |
| C72 | the distributions, coefficients and weight checks of C55, C59, C61, C62 at `F32` | the error calculus at precision 24; exact widening, one rounding when narrowing; spacing of binary32 at 1; one concrete panic |
| C73 | the families of C60 at `F32`, with the partitions and base measures computed in `f64` | the error calculus at precision 24; absolute bounds where single-precision powers underflow; one concrete cancellation |
| C74 | the interpreter-generic programs of C22, C23, C43, C52 with `DirectEval` at `F64` | the error calculus of C55 composed along each program; Stirling's bound; absorption of a tiny term into 1 |
| C75 | multinormal.rs with nalgebra's inverse and determinant as parameters | algebra of finite sums; uniqueness of inverses; Laplace expansion; column operations, Schur complements and block inverses for positive definite matrices |
| C76 | the binary64 instance of the log-densities, over all arguments | case analysis of every operation into rounding or overflow with a known sign; powers of two bounding the finite parts; size of log-gamma from its convexity |
| C77 | the binary64 and binary32 instances of nine log-densities, the sums over samples and the static inline functions, over pairs of arguments | every operation followed on the extended line, where rounding with overflow to the infinities is a monotone map |

## Trusted base

### Kernel and libraries

Coq 8.16.1's kernel (with `vm_compute`, which the kernel checks by its own virtual
machine; `native_compute` is not used). Coq's standard library, including
`Reals` and `Floats.SpecFloat`. Coquelicot and Flocq are used for proofs and, in
a few specification files, for vocabulary: Flocq's `B2R`/`bpow`/rounding
predicates (EggSpec, AccSpec, RoundSpec, DistSpec) and Coquelicot's `is_RInt`,
`is_derive`, `is_series` and limits (IntSpec, CombSpec, PropsMoments). They add
no axioms: everything listed below is from the standard library.

* `ClassicalDedekindReals.sig_forall_dec`, `ClassicalDedekindReals.sig_not_dec`
  - the two axioms on which the standard library builds its real numbers.
* `FunctionalExtensionality.functional_extensionality_dep` - used by the same
  construction.
* `Classical_Prop.classic` - excluded middle, used by the standard library's and
  Coquelicot's analysis (limits, mean value theorem, integrals).

No axiom, parameter, functor or plugin is added here; no kernel check is disabled.

### Which code is modelled

| crate and file | model |
|---|---|
| symbolic-math/src/expr.rs (tree, evaluators, batch and grid, simplifier, queries, substitution, operators, SymbolicLogDensity) | ExprModel, BuilderModel |
| symbolic-math/src/expr.rs (caches, Display, LaTeX, Python, pretty printers) | CacheModel, ShowModel |
| symbolic-math/src/lib.rs (builders, macros as their expansions, display helper) | BuilderModel, ShowModel |
| symbolic-math/src/jit.rs, JIT half of final_tagless.rs | JitModel |
| symbolic-math/src/optimization.rs | EggModel |
| symbolic-math/src/final_tagless.rs, mathjit/src/* | TaglessModel, ConstModel |
| measures-core/src/core/* | CoreModel, ConvModel; dual numbers in DualModel |
| measures-combinators/src/measures/* | CombModel |
| measures-exponential-family/src/exponential_family/* | ExpFamModel, TaglessModel |
| measures-distributions/src/distributions/{continuous,discrete}/* , final_tagless.rs | DistModel, TaglessModel |
| measures-distributions/src/distributions/multivariate/multinormal.rs (not compiled: its `mod` line is commented out; nalgebra's inverse and determinant are parameters) | MvnModel |
| measures-bayesian/src/bayesian/mod.rs | BuilderModel, JitModel |

### What the model assumes about things outside the repository

* `f64` arithmetic is IEEE-754 binary64, round to nearest even, with a single NaN
  (payload and sign of NaN are not represented; nothing in the code inspects them
  except the JIT's bit operations, whose model maps every NaN to one bit pattern).
  `iter().sum()` is a left fold from +0; recent Rust versions start from -0.0, which
  can change only the sign of a zero result.
* `ln exp powf sin cos` and `special::Gamma::ln_gamma` are parameters. In exact
  arithmetic (`XR lg`) the elementary functions are the real functions and
  `ln_gamma` is an arbitrary function `lg`; theorems that need more say so
  (`lg` is the logarithm of the Gamma integral, or of the factorial at integers).
  In binary64 they are an arbitrary record `libm`; accuracy theorems (C53-C55)
  assume `libm_ok c`, which a correctly rounding library meets with `c = 1`
  (proved: `C53_rounded_library`).
* Cranelift executes each instruction of the generated function as its
  documentation says, and the calling convention passes `f64` arguments in order.
  `transmute`d calls are compared by their argument layout only.
* egglog's engine is abstracted: an optimisation run is any sequence of rule
  applications, followed by the extraction of any equivalent term; its parser and
  printer are modelled on the text the repository produces and reads. `trim`
  removes ASCII white space only.
* Rust's `Display`/`parse` of `f64` are an arbitrary printer and reader satisfying
  the stated facts (shortest text that reads back to the same number; the texts
  never contain delimiters).
* A `Mutex`/`RwLock`/`OnceLock` section is atomic; poisoning does not occur
  because no code panics while holding a lock. `HashMap` is a finite map whose
  iteration order is not observed (where it is observed, theorems quantify over
  the order).
* `usize` and `u64` are unbounded naturals unless the property is about
  conversion (C46 uses explicit ranges); integer overflow of
  counters is not modelled.
* Forward-mode dual numbers (C64) are the textbook arithmetic of value and tangent
  over extended reals, comparisons on the value; the crate's own implementation is
  outside the repository. Its log-gamma derivative is a parameter `dg`, assumed to be
  the derivative of `lg`. That the crate's type meets the `Float` bound of the
  measures is not shown (the repository says the bridging trait is missing).
* Generic numeric type parameters (`F: Float`, `T: AD`) are instantiated with one
  numeric type at a time.

### Not modelled

The accuracy of a particular libm, Cranelift's translation from CLIF to machine
code, egglog's search order and limits, memory safety of `transmute`d calls beyond
the parameter-layout comparison, timing, allocation, the `special` crate,
nalgebra, macro hygiene, the text of error and panic messages where no property
mentions it, example and
benchmark binaries and the source of the `autodiff` crate.

### What `Print Assumptions` lists, theorem by theorem

Every file `Props*.v` ends each theorem with `Print Assumptions`. The results fall into
the groups below; every theorem named in MANIFEST.json appears in exactly one.

**Closed under the global context (no axioms), 185 theorems:** 

* C01: depends_only_on_listed_variables, undefined_is_listed_and_unbound, all_bound_never_undefined, missing_variable_is_error, zero_factor_hides_missing_variable_refuted
* C02: binary64_refuted
* C03: batch_is_pointwise, batch_vars_is_pointwise, grid_is_pointwise, batch_index, grid_index
* C04: optimised_batch_is, unbound_variable_refuted, zero_factor_refuted
* C05: polynomial_agrees_binary64, smart_rounding_refuted, smart_infinite_point_refuted
* C06: sqrt_of_square_refuted, ln_of_square_refuted
* C07: simplify_terminates, simplify_adds_no_variables, simplify_does_not_grow
* C08: iteration_reaches_fixed_point, iterations_bounded, single_call_idempotent_refuted
* C09: simplify_cached_returns_simplify, colliding_names_get_a_wrong_answer_refuted
* C10: evaluate_cached_returns_evaluate, colliding_names_hide_an_error_refuted
* C11: statistics_count_every_call, statistics_count_calls_since_clear, report_counts_calls_since_clear, concurrent_report_is_close, hit_iff_seen_since_clear, counters_grow_except_in_clear, clear_during_a_call_loses_it_refuted
* C12: display_is_unambiguous, debug_of_bindings_is_unambiguous, arbitrary_names_collide_refuted, display_helpers_are_unambiguous
* C13: python_computes_the_same, python_reading_is_unique, keyword_variable_is_not_python_refuted, infinity_becomes_a_name_refuted, brackets_balance, display_python_is_a_lambda
* C14: variables_lists_exactly_the_occurring_names, variables_strictly_increasing
* C15: evaluate_overrides_parameters, evaluate_single_is_one_override, substitution_removes_exactly_the_parameters, zero_parameter_refuted, simplified_variables, advertised_variables, advertised_variables_refuted
* C16: compile_with_constants, compiles_iff_closed, error_names_an_unbound_variable, code_computes_expression, never_stuck, custom_compiles_iff_closed, custom_code, tagless_compiles_iff_closed, tagless_error_names_an_unbound_variable, tagless_code
* C17: ln_domain_refuted, exp_zero_refuted, exp_range_refuted, exp_trap_refuted, pow_negative_base_refuted, trig_range_refuted, exact_operations_single, exact_operations, literal_zero_factor_refuted
* C18: slots, constants, entry_points_agree_on_shared_names_refuted, call_single, call_data_param, call_data_params, many_parameters_refuted, call_batch, batch_layout_refuted, no_layout_mismatch, tagless_calls
* C19: none_before_compilation, failed_compilation_keeps_state, outcome_after_compilation, evaluation_returns_value_refuted
* C20: sqrt_refuted, second_decimal_refuted, unbalanced_name_refuted, surrounding_blanks, parser_total
* C21: binary64_reassociation_refuted
* C22: direct_is_evaluate, direct_is_evaluate_single_var, value_interpreters, named_variables_panic_refuted, named_variables_are_zero_refuted, library_functions_are_terms, pretty_is_display, pretty_injective, compiles, compiled_is_direct, calls_are_direct, entry_points, auto_compile, auto_compile_uncallable_refuted, entry_points_agree
* C23: empty, any_interpreter
* C24: wrt_is_the_difference, antisymmetric_in_binary64, self_is_zero_in_binary64, batch_is_pointwise
* C25: sized_fields_never_take_the_shortcut, shortcut_needs_a_zero_sized_measure
* C26: memo_is_transparent, memo_evaluates_each_point_once, sloppy_eq_breaks_the_memo_refuted
* C28: empty_collection
* C29: closure_is_the_default_density
* C30: binomial_families_refuted
* C33: outside_the_support_direct, supported_everywhere
* C34: parameters_are_kept
* C36: joint_log_density_support_root
* C37: support_and_root_unchanged, dirac
* C38: root
* C42: mixture_edge_cases
* C43: special_functions_panic_refuted, distribution_interface_panics_refuted
* C44: register_then_get, registered_type_compiles, auto_jit_never_succeeds_refuted
* C45: value_is_right
* C46: f64_is_preserved, errors_name_the_failing_step, large_integers_are_changed_refuted
* C48: lookup_is_last_definition, evaluation_order_stays_empty, last_call_meaning
* C50: conversions, abs_overflows_refuted
* C51: no_deadlock, calls_end, all_calls_can_finish, one_answer_per_call, mutual_exclusion
* C52: length_mismatch, log_sum_exp_overflow_refuted
* C56: evaluate, evaluate_single, compiles_iff_data_variable_first, two_unknown_names_fail, compiled_exact, parameter_sorts_first_refuted, closed_density_refuted, simplified_does_not_compile_refuted
* C57: counts, compile_statistics, tagless_statistics, instruction_count_arithmetic, instruction_count_refuted
* C62: exponential_exact, overflow_refuted
* C65: distributions_have_positive_size, family_markers
* C66: two_categories_are_a_coin, parameter_accessors, symmetries_in_binary64
* C68: latex_reading_is_unique
* C71: traps_exactly, plain_never_traps, normal_never_traps, ln_ignores_sign, pow_ignores_sign
* C72: other_operations
* C73: binomial_measure, mixed_structure
* C74: log_sum_exp_short
* C76: mixture_nan_refuted, nan

**`ClassicalDedekindReals.sig_forall_dec`, `FunctionalExtensionality.functional_extensionality_dep`, 4 theorems:** 

* C45: gradient_is_the_value_refuted
* C46: float_to_integer_truncates
* C47: dot_is_symmetric_and_linear
* C59: logit_overflow_refuted

**`ClassicalDedekindReals.sig_forall_dec`, `ClassicalDedekindReals.sig_not_dec`, `Classical_Prop.classic`, `FunctionalExtensionality.functional_extensionality_dep`, 567 theorems:** 

* C02: evaluators_agree_without_zero_factors, single_success_is_evaluate_success, both_compute_the_mathematical_value, denotes_is_all_parts_finite
* C04: optimised_batch_agrees
* C05: linear_agrees, smart_agrees
* C06: simplify_preserves_value, simplify_preserves_value_plain, power_of_power_refuted
* C11: hit_rate_is_a_ratio
* C13: python_denotes_the_same, negated_base_changes_value_refuted, latex_is_ambiguous_refuted, latex_drops_brackets_refuted
* C15: substitution_preserves_value, substitution_preserves_every_result, simplify_preserves_value
* C17: ln, exp, pow, sin, cos, compiled_accuracy, real_value_unique, normal_log_density, ln_subnormal_refuted
* C20: round_trip, exact_iff, exact_for_short_decimals, optimizer_output
* C21: rules_sound, pow_of_pow_refuted, ln_of_pow_refuted, saturation_sound, all_rules_sound_on_positive_powers, constants_stay_distinct, negative_base_refuted, undefined_term_refuted
* C22: single_constants_close, single_constant_refuted, integer_constants_exact, integer_constant_refuted, direct_is_meaning, zero_factor_refuted, logistic_softplus
* C23: horner, from_roots, horner_derivative
* C24: default_base_is_the_root, primitive, relative_density_is_the_quotient, antisymmetric, chain_rule, self_is_zero, outside_both_supports_is_nan_refuted, shared_root_is_the_product
* C25: zero_sized_base_depends_on_layout_refuted
* C27: evaluate_is_the_sum_of_the_terms, insertion_order_is_irrelevant, iid_is_the_sum_over_samples, iid_of_no_samples_is_zero, iid_of_no_samples_with_infinite_parameter_term_refuted, partial_evaluators_rebuild_evaluate
* C28: joint_is_the_sum, order_is_irrelevant, collections_concatenate, continuous_families, discrete_families, log_density_iid, standard_api, relative_collections, support, fallback, fallback_agrees, closure_offset, closure_correct_for_one_sample, closure_refuted, negative_binomial_collection, poisson_collection, categorical_collection, categorical_outside, categorical_outside_refuted
* C29: normal, standard_normal, exponential, exponential_family_path_offset, exponential_paths_agree_refuted, gamma, beta, chi_squared, chi_squared_is_gamma, student_t, cauchy, bernoulli, bernoulli_certain_refuted, binomial, binomial_paths_agree_refuted, poisson, poisson_family_path, geometric, geometric_paths_agree_refuted, geometric_certain_refuted, negative_binomial, negative_binomial_paths_agree_refuted, categorical, categorical_zero_refuted, closure_relative, normal_relative_to_normal
* C30: normal, normal_converse, exponential, exponential_converse, gamma, gamma_converse, beta, beta_converse, chi_squared, chi_squared_converse, bernoulli, bernoulli_converse, poisson, poisson_converse, geometric, geometric_converse, categorical, categorical_converse, geometric_certain_refuted
* C31: bernoulli, bernoulli_family, poisson, poisson_family, geometric, geometric_certain_refuted, geometric_family_total, geometric_family_refuted, categorical, categorical_family, binomial_family, binomial_direct, binomial_direct_refuted, negative_binomial_direct, negative_binomial_direct_refuted, negative_binomial_family_total, negative_binomial_family_refuted
* C32: normal, standard_normal, exponential, exponential_family_total, exponential_family_refuted, gamma, beta, chi_squared, student_t, cauchy, log_gamma_exists
* C33: supports, positive_inside, outside_on_the_family_path, family_path_ignores_the_support_refuted, boundary_parameters_refuted
* C34: constructors, constructors_in_binary64, categorical, uniform_categorical, mixture, uniform_mixture, invalid_parameters_accepted_refuted, negative_weights_accepted_refuted, gamma_from_shape_scale, gamma_zero_scale_accepted_refuted
* C35: normal, exponential, gamma, beta, chi_squared, bernoulli, geometric, categorical, binomial_family, poisson, negative_binomial_textbook, negative_binomial_own_mean, negative_binomial_refuted, binomial_direct_refuted
* C36: joint_density, mass_of_a_rectangle, relative_densities_add, nesting_is_associative
* C37: weighted, weights_compose, integral, relative_to_the_base, mass_is_scaled
* C38: density, minus_infinity, order_is_irrelevant, support, normalised, interval_mass, two_components, uniform_is_the_average, uniform_of_two, special_values_refuted
* C39: interval_mass, log, exp, linear, logit, density, outside_the_image_refuted
* C40: factorial, binomial_coefficient, negative_binomial_coefficient, poisson_family_path_close
* C41: normal_log_pdf_is_log_of_normal_density, gaussian_kernel_is_unnormalised_normal, polynomial_is_sum_of_powers, logistic_and_softplus, expr_builders
* C42: normal_likelihood_and_prior, posterior_is_sum, hierarchical_normal, tau_is_not_the_deviation_of_mu_refuted, mixture_is_log_of_weighted_sum, mixture_of_expressions, all_zero_weights_is_error_refuted
* C43: patterns, distribution_eval, log_gamma_stirling, log_gamma, gamma_density, exponential_support_refuted, poisson_refuted
* C46: integers_up_to_2_53_survive, integer_to_float_is_exact_up_to_2_53, f32_is_preserved, f64_to_f32_rounds_to_nearest, integer_to_float_rounds_to_nearest, constant_fallbacks
* C47: dot_is_the_sum_of_products, dot_of_a_difference, sums_are_componentwise, mismatched_lengths_are_truncated_refuted
* C49: transform_is_affine, shapes_are_checked, reported_log_determinant, log_determinant_refuted, componentwise, componentwise_log_determinant_refuted
* C50: binary_and_unary_operators, mixed_with_numbers, functions
* C52: dot_product, array_truncates_refuted, sum_stats, sum_stats_panics, iid_is_sum, log_sum_exp
* C53: evaluate, evaluate_single, compiled_agreement, rounded_library
* C54: sum, dot, linear_map, horner, log_sum_exp
* C55: normal, exponential, gamma, beta, chi_squared, student_t, cauchy, bernoulli, binomial_kernel, negative_binomial_kernel, poisson, geometric, categorical, normal_sample
* C56: compiled_accuracy, simplified_evaluates, simplified_evaluates_single
* C57: speedup, speedup_monotone, reported_speedups
* C58: simplify_keeps_the_rounded_value, simplify_keeps_the_rounded_value_calm, rounded_library, ln_of_exp_refuted
* C59: weighted, integral, product, relative_density, mixture, weights_accepted, weights_refused, uniform_accepted, pair_accepted, pushforward, linear, linear_round_trip, lognormal, logit
* C60: normal, normal_cancellation_refuted, normal_paths_agree, compiled_normal, normal_decomposition, standard_normal, exponential, compiled_exponential, gamma, beta, chi_squared, bernoulli, binomial, poisson, geometric, negative_binomial, categorical
* C61: factorial, binomial_coefficient, negative_binomial_coefficient
* C62: normal, gamma, beta, chi_squared, small_shapes_refuted, small_degrees_refuted, bernoulli, bernoulli_from_natural, poisson, poisson_from_natural, poisson_extremes_refuted, geometric, geometric_small_refuted, categorical_accepts, categorical_rejects, uniform, categorical_from_natural, categorical
* C63: bernoulli, binomial, poisson, normal, standard_normal, gamma, chi_squared, beta, categorical, exponential_refuted, geometric_refuted, negative_binomial_refuted, density_from_parts, categorical_override
* C64: continuous_families, family_paths, discrete_families, categorical, iid_continuous, iid_discrete, iid_fallback, mixture, zero_weight_refuted, every_generic_program, polynomials, normal_score, helper_drops_the_tangent_refuted
* C65: continuous_distributions, discrete_distributions, log_density_at, relative_log_density, shared_root_and_batches
* C66: defaults_pass_their_constructors, standard_normal, standard_normal_from_natural_ignores_its_argument_refuted, gamma_chi_squared_exponential, gamma_exponential_at_zero_refuted, beta_and_student, counts, sequence_of_flips, odds_accessors, location_and_scale, mirror_images
* C67: beta_prior, gamma_prior, exponential_family_joint_refuted, normal_mean, symbolic_posterior, constant_is_the_log_marginal_likelihood
* C68: latex_denotes_the_same, missing_brackets_change_the_value_refuted, double_superscript_refuted, variable_e_refuted
* C69: constant_is_nearest, f64_constant_kept, integer_constant, panics_exactly_on_other_text, f32_constant_refuted, optimizer_reads_any_numerals
* C70: normal, cauchy, student, normal_family, normal_paths_agree, normal_cancellation_refuted, exponential_family, gamma_family, beta_family, poisson_family, bernoulli_family, geometric_family, standard_normal_family, chi_squared_family, binomial_family, negative_binomial_family, categorical_family
* C71: exp_traps_exactly, pow_returns, pow_undefined_exponent_traps, exp_wraps, exp_negative, exp_out_of_range_negative, ln_always_finite, ln_subnormal, sin_leaves_range, cos_leaves_range
* C72: widen, narrow, library, rounded_library, arithmetic, literals, functions, constructors, outside, normal, exponential, gamma, beta, chi_squared, cauchy, student_t, bernoulli, binomial_kernel, negative_binomial_kernel, poisson, geometric, categorical, binomial_coefficient, negative_binomial_coefficient, beta_partition, normal_agreement, cauchy_agreement, categorical_accepts, mixture_accepts, uniform_powers, uniform_refuted
* C73: normal, normal_cancellation_refuted, normal_paths_agree, compiled_normal, normal_decomposition, standard_normal, exponential, compiled_exponential, gamma, beta, chi_squared, bernoulli, binomial, poisson, geometric, negative_binomial, categorical, factorial
* C74: normal, standard_normal, exponential, cauchy, poisson, log_gamma, gamma, logistic, softplus, softplus_left_refuted, softplus_overflow_refuted, log_sum_exp, from_roots, dot_product, exp_fam_log_density, iid_log_density
* C75: construction, not_square, density, positive_definite, mode, independent, standard, round_trip, wrong_length, negative_determinant, symmetry_unchecked_refuted, definiteness_unchecked_refuted
* C76: location_scale, exponential, gamma, chi_squared, beta, student_t, bernoulli_and_categorical, counts, poisson, samples, log_sum_exp, mixture, pushforward, pushforward_ends_refuted, product_and_weighted, plus_infinity_refuted, early_overflow_refuted, standard_normal, family_infinity_refuted, family_scale_refuted, static_inline, static_inline_scale_refuted, single_location_scale, single_exponential, single_gamma, single_chi_squared, single_beta, single_student_t, single_counts, single_poisson, single_samples, single_log_sum_exp, single_mixture, single_plus_infinity_refuted, single_early_overflow_refuted
* C77: normal, normal_mode_and_symmetry, exponential, static_inline, cauchy, student_t, geometric, gamma, chi_squared, bernoulli, categorical, samples, discrete_samples, family_refuted, single_normal, single_exponential, single_cauchy, single_samples, single_bernoulli, single_categorical, single_discrete_samples, single_geometric, single_gamma, single_chi_squared, single_student_t
