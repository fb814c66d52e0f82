{"id": "C01", "title": "Evaluation depends only on the variables an expression mentions", "statement": "Expr::evaluate always returns; two bindings that agree on every name in variables() give the same result; if every name in variables() is bound the result is never UndefinedVariable, and whenever UndefinedVariable(v) is returned v is in variables() and v is unbound. Without multiplication-by-zero shortcuts a missing variable is always an error.", "quantifier": "every expression of any depth, every variable binding", "why_tests_cant": "The set of expressions and bindings is infinite; tests sample a few trees.", "anchors": ["symbolic-math/src/expr.rs:Expr::evaluate", "symbolic-math/src/expr.rs:Expr::variables"]}
{"id": "C02", "title": "The two scalar evaluators agree", "statement": "evaluate_single_var(name,v) and evaluate({name: v}) are two implementations of the same meaning. In exact arithmetic they return the same result, errors included, for every expression without a literal zero factor; both return the mathematical value wherever every part of the expression has one; and if every part is finite a success of evaluate_single_var is the same success of evaluate. A literal zero factor makes evaluate succeed where evaluate_single_var fails or gives NaN, and on f64 a literal zero summand changes the sign of zero.", "quantifier": "every expression, every variable name, every value", "why_tests_cant": "Divergence needs an adversarial expression; the equality is over all trees.", "anchors": ["symbolic-math/src/expr.rs:Expr::evaluate", "symbolic-math/src/expr.rs:Expr::evaluate_single_var"]}
{"id": "C03", "title": "Batch, multi-variable batch and grid evaluation are pointwise", "statement": "evaluate_batch returns Ok iff evaluation succeeds at every point, has the input's length, and entry i is the scalar evaluation at input i; otherwise it returns the error of the first failing point. evaluate_batch_vars is entry-wise evaluate. evaluate_grid returns one row per y value and one entry per x value and entry [j][i] is evaluate at (x_i, y_j).", "quantifier": "every expression, every list of points (any length), every grid", "why_tests_cant": "Lengths and positions of failures are unbounded.", "anchors": ["symbolic-math/src/expr.rs:Expr::evaluate_batch", "symbolic-math/src/expr.rs:Expr::evaluate_batch_vars", "symbolic-math/src/expr.rs:Expr::evaluate_grid"]}
{"id": "C04", "title": "The optimised batch evaluator agrees with the plain one", "statement": "evaluate_batch_optimized(var, xs) returns the same results as evaluate_batch(var, xs) when the expression mentions no other variable and has no literal zero factor. Otherwise it differs: every other variable is silently taken to be 0 (evaluate_batch reports it as undefined), and a literal zero factor is not short-circuited.", "quantifier": "every expression, variable name and list of points", "why_tests_cant": "Requires comparing two functions on every expression, including those mentioning other variables.", "anchors": ["symbolic-math/src/expr.rs:Expr::evaluate_batch_optimized", "symbolic-math/src/expr.rs:Expr::evaluate_batch"]}
{"id": "C05", "title": "Specialised polynomial/linear/smart evaluation agrees with the general evaluator", "statement": "Whenever evaluate_linear or evaluate_polynomial returns a value it is the general evaluator's value (linear: exact arithmetic at finite points; polynomial: bit for bit on f64), and evaluate_smart returns exactly the general evaluator's result, errors included, in exact arithmetic at finite points with finite constants. On f64 the linear path reassociates and can differ, and at an infinite point it answers NaN for a constant.", "quantifier": "every expression, variable and finite value", "why_tests_cant": "Pattern matching fast paths are correct or wrong on shapes, which are infinitely many.", "anchors": ["symbolic-math/src/expr.rs:Expr::evaluate_polynomial", "symbolic-math/src/expr.rs:Expr::extract_linear_coefficients", "symbolic-math/src/expr.rs:Expr::evaluate_linear", "symbolic-math/src/expr.rs:Expr::evaluate_smart"]}
{"id": "C06", "title": "Simplification preserves value", "statement": "For every binding at which every part of the original expression has a finite value, the simplified expression evaluates to the same value, provided no logarithm, root or power is taken of something the simplifier has turned into a power with a base outside the rule's domain. Without that proviso it fails: sqrt(x*x), ln(x*x) and (x^2)^0.5 at negative x.", "quantifier": "every expression, every binding", "why_tests_cant": "Rewrite soundness quantifies over all sub-expressions a rule can match.", "anchors": ["symbolic-math/src/expr.rs:Expr::simplify", "symbolic-math/src/expr.rs:Expr::evaluate"]}
{"id": "C07", "title": "Simplification never adds variables or grows the expression", "statement": "simplify terminates; variables of simplify(e) are a subset of variables of e; complexity(simplify(e)) <= complexity(e).", "quantifier": "every expression", "why_tests_cant": "Unbounded depth; the nested-power rule re-simplifies a newly built product.", "anchors": ["symbolic-math/src/expr.rs:Expr::simplify", "symbolic-math/src/expr.rs:Expr::variables", "symbolic-math/src/expr.rs:Expr::complexity"]}
{"id": "C08", "title": "Iterated simplification reaches a fixed point", "statement": "Calling simplify repeatedly reaches an expression that simplify leaves unchanged, after a number of calls bounded by the expression's weight. One call is not always enough.", "quantifier": "every expression", "why_tests_cant": "A counterexample is a specific shape tests do not try; a proof needs all shapes.", "anchors": ["symbolic-math/src/expr.rs:Expr::simplify"]}
{"id": "C09", "title": "The simplification cache is transparent", "statement": "Under every history and interleaving of simplify_cached, evaluate_cached, clear_caches and get_cache_stats calls by any number of threads, every simplify_cached(e) call returns exactly what simplify(e) returns, provided variable names are identifiers. For arbitrary names it fails: after simplify_cached of a variable named \"(x + y)\", simplify_cached of x + y returns that variable.", "quantifier": "every finite history, every interleaving of the individual lock sections, every expression", "why_tests_cant": "Histories and schedules cannot be enumerated; a key collision needs an adversarial pair.", "anchors": ["symbolic-math/src/expr.rs:Expr::simplify_cached", "symbolic-math/src/expr.rs:clear_caches", "symbolic-math/src/expr.rs:SIMPLIFICATION_CACHE"]}
{"id": "C10", "title": "The evaluation cache is transparent", "statement": "Under every history and interleaving of the cache functions, evaluate_cached(vars) returns what evaluate(vars) returns, errors included, and an error answer never comes from the cache, provided variable names are identifiers. For arbitrary names it fails: a cached value can hide an undefined-variable error.", "quantifier": "every finite history, every interleaving, every expression and binding", "why_tests_cant": "As C09; additionally the key contains the map's debug print in unspecified iteration order.", "anchors": ["symbolic-math/src/expr.rs:Expr::evaluate_cached", "symbolic-math/src/expr.rs:EVALUATION_CACHE"]}
{"id": "C11", "title": "Cache statistics are consistent", "statement": "With no clears, once all threads have finished, the four counters are the numbers of finished simplify/evaluate calls answered from the cache and not; a report taken while others run misses no finished call and counts at most one unfinished call per other thread. For one thread the same holds for the calls since the last clear, and a call is a hit exactly when the same text (and bindings, with a successful result) was seen since the last clear. Counters never decrease except by clear_caches; hit rates lie in [0,1]. A clear that runs while another thread is inside a call loses that call from the statistics and can leave the cleared cache non-empty.", "quantifier": "every finite history of calls, any number of threads, every interleaving of the lock sections", "why_tests_cant": "Counting over unbounded histories.", "anchors": ["symbolic-math/src/expr.rs:CacheStats", "symbolic-math/src/expr.rs:get_cache_stats", "symbolic-math/src/expr.rs:CacheStats::simplification_hit_rate"]}
{"id": "C12", "title": "Display is unambiguous", "statement": "Two expressions with equal Display text are equal, so the text can serve as a cache key, for expressions whose variable names are identifiers; the same holds for the one-line LaTeX, Python and equation helpers, which wrap that text; for arbitrary names this fails.", "quantifier": "every pair of expressions", "why_tests_cant": "Injectivity over an infinite domain.", "anchors": ["symbolic-math/src/expr.rs:Display for Expr"]}
{"id": "C13", "title": "Exported LaTeX and Python text denotes the same expression", "statement": "The exported Python, read with Python's grammar and precedence, denotes the same function as the expression, its reading is unique and brackets balance, for Python-usable variable names, finite constants and no negated power base. Exceptions: a negated base changes the value, keyword variables are not Python, infinity becomes a name, and the exported LaTeX is ambiguous because it drops brackets.", "quantifier": "every expression", "why_tests_cant": "Precedence errors occur for particular nestings only.", "anchors": ["symbolic-math/src/expr.rs:Expr::to_latex", "symbolic-math/src/expr.rs:Expr::to_python", "symbolic-math/src/lib.rs:display"]}
{"id": "C14", "title": "variables() lists exactly the names occurring, sorted, without repeats", "statement": "A name is in variables() iff it occurs in the expression; the list is strictly increasing.", "quantifier": "every expression", "why_tests_cant": "All tree shapes.", "anchors": ["symbolic-math/src/expr.rs:Expr::variables", "symbolic-math/src/expr.rs:Expr::collect_variables"]}
{"id": "C15", "title": "Symbolic log-densities: parameters, overrides and substitution", "statement": "SymbolicLogDensity::evaluate(vars) is evaluation under parameters overridden by vars; evaluate_single is the special case of one variable; after substitute_parameters exactly the parameter names are gone from the expression, and evaluation under bindings of the other variables is unchanged wherever the original has a mathematical value (and for errors too when no literal zero factor appears). Simplifying a log-density keeps its parameters in force and its value under every binding where the expression has a mathematical value and the simplifier's side conditions (C06) hold, and the advertised list still covers every remaining name. A zero parameter can turn an error into a success, and the advertised variables list still contains the substituted names. A new log-density advertises exactly the names occurring in its expression, sorted and without repeats.", "quantifier": "every expression, parameter map and binding", "why_tests_cant": "All expressions and maps.", "anchors": ["symbolic-math/src/expr.rs:SymbolicLogDensity"]}
{"id": "C16", "title": "JIT code generation is correct", "statement": "compile_expression, compile_custom_expression, compile_final_tagless and compile_with_constants succeed exactly when every variable of the expression is an argument name or a constant name, and otherwise report such an unbound variable; the code they produce is well-formed (every operand is an argument or the result of an earlier instruction, of the right type) and, run on any arguments, returns the value of the expression in the JIT's operators under the bindings the arguments give, or traps exactly where the exponential's conversion to a 32-bit integer traps.", "quantifier": "every expression, name lists, constants, every argument vector", "why_tests_cant": "Compiler correctness is over all programs.", "anchors": ["symbolic-math/src/jit.rs:GeneralJITCompiler::generate_clif_from_expr_with_vars"]}
{"id": "C17", "title": "JIT operator approximations match the evaluator's operators", "statement": "For the operators the JIT implements itself: sums, differences, products, quotients, negation and square roots return exactly what the evaluator returns; ln is within 4e-12 of the true logarithm for every positive normal operand; exp is within 3e-12 relative on [-708, 709] and does not trap there; a general power with positive normal base is within a factor exp(4e-12 (1+|exponent|)) of the true power as long as |exponent ln base| is below 707; sin on [-4,4] and cos on [-2,2] are within the Taylor remainder x^7/5040 resp. x^6/720 plus coefficient error; and for any expression the compiled call returns a finite number within the accumulated bound of its real value. Exceptions (defects): a literal zero factor times infinity or NaN; ln of zero, negative numbers, infinities, NaN and subnormals gives ordinary wrong numbers; exp(0) is not 1; exp below -709 or above 710 gives numbers of arbitrary sign and size; exp of infinities, NaN or huge arguments stops the process; odd powers of negative numbers have the wrong sign; sin and cos diverge for large arguments.", "quantifier": "every f64 operand in the stated ranges, every expression, every argument vector", "why_tests_cant": "2^64 arguments; failures sit at signs, zeros, infinities, large magnitudes.", "anchors": ["symbolic-math/src/jit.rs:generate_accurate_ln_call", "symbolic-math/src/jit.rs:generate_exp_call", "symbolic-math/src/jit.rs:generate_pow_call", "symbolic-math/src/jit.rs:generate_sin_call", "symbolic-math/src/jit.rs:generate_cos_call"]}
{"id": "C18", "title": "Compiled functions can be called exactly as their signature says", "statement": "Argument slots are the data variables followed by the parameters, other names are constants; call_single, call_data_param and call_data_params evaluate the expression under those bindings when the numbers of data variables and parameters are 1+0, 1+1, 1+2 or 1+3 and panic otherwise, and never run the code with another argument layout. Exceptions (defects): with 4 or more parameters every call_data_params panics although the signature announces it; call_batch always panics or runs the code with a layout (pointers and lengths) other than the one it was compiled for; a name that is both argument and constant is the argument in compile_expression and the constant in compile_final_tagless.", "quantifier": "every variable list, every argument vector, every call method", "why_tests_cant": "All lengths of data and parameter lists.", "anchors": ["symbolic-math/src/jit.rs:GeneralJITFunction", "symbolic-math/src/jit.rs:GeneralJITCompiler::compile_expression", "symbolic-math/src/jit.rs:JITSignature"]}
{"id": "C19", "title": "Bayesian JIT evaluation over compile histories", "statement": "Before a compilation of its kind has succeeded, evaluate_posterior/likelihood/prior return None; a failed compilation leaves the optimiser unchanged; the function used is that of the last successful compilation. Exception (defect): after a successful compilation evaluate_* never returns a value, for any history and any arguments: it panics, or, when the sizes match and there is not exactly one data variable, runs the code with a wrong argument layout.", "quantifier": "every optimiser state and history of compile calls, every data and parameter vector", "why_tests_cant": "Histories and argument shapes are unbounded.", "anchors": ["measures-bayesian/src/bayesian/mod.rs:BayesianJITOptimizer"]}
{"id": "C20", "title": "Egglog text round trip", "statement": "Converting an expression to egglog text and parsing it back yields the same structure and variable names with each finite constant replaced by the binary64 number nearest to its value rounded to one decimal (infinities and NaN unchanged); the result is the same expression exactly when each finite constant is already such a number, in particular for integers and short one-decimal constants. Parsing terminates on every text and ignores white space around it. Exceptions (defects): any other constant is silently changed (0.25 becomes 0.2, 0.01 becomes 0); an expression containing a square root never parses back, so the optimizer returns its input; a variable name with unbalanced parentheses is misread or panics the parser.", "quantifier": "every expression with any constants, names and nesting", "why_tests_cant": "Constants and nesting are unbounded; the number format loses digits.", "anchors": ["symbolic-math/src/optimization.rs:expr_to_egglog", "symbolic-math/src/optimization.rs:egglog_to_expr"]}
{"id": "C21", "title": "Egglog rewrite rules are sound", "statement": "Every rewrite rule except (x^a)^b = x^(ab) and ln(x^n) = n ln x relates expressions of equal value wherever the left side is defined. Equality saturation with any sound rules, for any number of iterations and any history of entered terms that have values, equates only terms of equal value, so every extractable representative of a term has its value; with all 59 rules the same holds when powers and square roots are taken of positive numbers only, and distinct constants then stay distinct. Exceptions (defects): the two rules are unsound; from sqrt((-1)^2) the optimizer derives 1 = -1 within its iteration limit; one undefined term entered (0/0) makes 0 = 1 in all later optimizations; the rules are not value-preserving on binary64 (reassociation).", "quantifier": "every instance of every rule, every binding, every number of iterations, every history of terms", "why_tests_cant": "Rules are schematic; soundness is over all instances.", "anchors": ["symbolic-math/src/optimization.rs:EgglogOptimizer::new"]}
{"id": "C22", "title": "Final-tagless interpreters agree", "statement": "For every function written once against the MathExpr interface that takes its inputs as arguments: direct evaluation gives the real value of the reified expression, and in any arithmetic equals what evaluate returns on it (sums and products with literal 0/1 operands aside) and what evaluate_single_var returns; the exponential-family and distribution interpreters give the same value; pretty-printing is the displayed expression with spaces around ^ and is injective; the JIT interpreter's expression compiles whenever its inputs are declared, and for +,-,*,/,negation,sqrt the compiled call returns exactly the direct value; so do the functions compiled by the entry points for one variable, a variable and a parameter, a variable and any parameters, and any variables and parameters, taking their inputs in that order. logistic is in (0,1), increasing, and the derivative of softplus; the exponential-family interface offers the same two functions, and the wrapper functions for variables and constants and the value interpreters' own variables give what the interpreter gives. Exceptions (defects): a variable created by name evaluates to 0 in DirectEval and panics in the other value interpreters; with a literal zero factor evaluate returns 0 where direct evaluation returns NaN; compile() without a signature yields code no call function accepts as soon as there are two variables. Constants enter the JIT interpreter through their printed text: when the text is read to the nearest f64, integers up to 2^53 in size are exact, and an f32 constant printed so that it reads back and whose text denotes at least 2^-126 becomes an f64 within 2^-23 relative of it. Exceptions (defects): the f32 nearest to 0.1 becomes the f64 nearest to 0.1, a different number; the integer 2^53+1 becomes 2^53.", "quantifier": "every expression built from the MathExpr operations, every binding, every argument", "why_tests_cant": "Parametricity over all expressions.", "anchors": ["symbolic-math/src/final_tagless.rs:MathExpr", "symbolic-math/src/final_tagless.rs:DirectEval", "symbolic-math/src/final_tagless.rs:PrettyPrint", "symbolic-math/src/final_tagless.rs:JITEval", "symbolic-math/src/final_tagless.rs:JITEval::constant"]}
{"id": "C23", "title": "Polynomial helpers are correct", "statement": "horner and horner_expr compute sum a_i x^i, from_roots computes prod (x - r_i), which vanishes exactly at the roots, horner_derivative computes the derivative of horner at every point; empty inputs give 0, 1 and 0; in every interpreter these agree with direct evaluation.", "quantifier": "every coefficient list, every x, every interpreter", "why_tests_cant": "Any degree.", "anchors": ["mathjit/src/final_tagless.rs:polynomial"]}
{"id": "C24", "title": "Log-density algebra", "statement": "When the two struct fields have different addresses (see C25): wrt(b).at(x) is the difference of the root densities in all four exponential-family dispatch cases; log_density().at(x) is the density with respect to the root; exp of it is the quotient of the densities wherever the base density is positive; it is antisymmetric (in binary64 too) and satisfies the chain rule at points where the densities involved are finite; a measure with respect to itself is zero where its density is finite (in binary64 too). Batch evaluation is pointwise. The counting and Lebesgue measures contain every point and have log-density zero with respect to their root. Exception: where both densities are -inf the answer is NaN.", "quantifier": "every pair/triple of measures, every point", "why_tests_cant": "Any measures and points; four dispatch paths.", "anchors": ["measures-core/src/core/density.rs:LogDensity", "measures-core/src/core/density.rs:EvaluateAt", "measures-core/src/core/density.rs:log_density_batch"]}
{"id": "C25", "title": "The self-density shortcut and struct layout", "statement": "In every legal field layout, fields of positive size never take the zero shortcut, so it can only fire when one of the two measure types is zero-sized. Exception (a defect): with a zero-sized base measure such as Lebesgue or counting measure, a legal layout makes log_density().at(x) zero for every x and another makes it correct.", "quantifier": "every memory layout of the struct, every pair of measures", "why_tests_cant": "Layout is chosen by the compiler, not by the test.", "anchors": ["measures-core/src/core/density.rs:EvaluateAt::at"]}
{"id": "C26", "title": "Memoised log-densities are transparent", "statement": "For any sequence of at calls on a CachedLogDensity every answer equals the uncached answer, the underlying density is evaluated exactly once per distinct point asked for and at no other point, provided keys that compare equal have equal densities; otherwise transparency fails.", "quantifier": "every sequence of points", "why_tests_cant": "Histories.", "anchors": ["measures-core/src/core/density.rs:CachedLogDensity"]}
{"id": "C27", "title": "Log-density decomposition", "statement": "evaluate is the sum of what every builder call contributed, in any insertion order; evaluate_iid of a non-empty sample list is the sum over samples of evaluate(sample), infinite terms included; of no samples it is 0 when parameter and constant terms are finite (NaN otherwise); each partial evaluator sums its own kind of terms and together they rebuild evaluate.", "quantifier": "every decomposition, sample list and parameter", "why_tests_cant": "Any number of terms and samples.", "anchors": ["measures-core/src/core/log_density_decomposition.rs"]}
{"id": "C28", "title": "IID joint density is the sum of the marginals", "statement": "For an exponential family whose density is its exponential-family form, iid().log_density of n samples is the sum of the n individual log-densities (0 for none), through every method of the collection and through log_density().at on the collection, and the log-density of a collection relative to another measure's collection is the sum of the relative log-densities, in any order of the samples, and concatenating collections adds; for Normal, Gamma, Beta, ChiSquared, Bernoulli and Binomial this is the sum of the true log-densities, for Poisson up to 4e-15 per sample, for Categorical with positive probabilities and samples that are categories up to the logarithm of the sum of the probabilities per sample; log_density_iid of Normal, StudentT and Cauchy is the sum of the true log-densities; support is all-in-support; the fallback is the sum of the direct log-densities. Exceptions (defects): a categorical collection treats a sample that is no category, of log-density minus infinity on its own, as the last category and returns a finite log-density; a negative binomial collection is off by minus ln(1-p) times the total count; a geometric collection is off by ln(1-p) and an exponential one by -2 ln(rate) per sample; the zero-overhead closure of a collection of n samples is off by (n-1) times the log-partition.", "quantifier": "every distribution, every sample list", "why_tests_cant": "Any n; several code paths.", "anchors": ["measures-exponential-family/src/exponential_family/iid.rs", "measures-exponential-family/src/exponential_family/traits.rs:compute_iid_exp_fam_log_density"]}
{"id": "C29", "title": "Each distribution's direct and exponential-family densities agree", "statement": "At every point of the support the direct log-density, the exponential-family log-density and the zero-overhead closure of Normal, StdNormal, Gamma, Beta, ChiSquared, Bernoulli (0<p<1) and Categorical (positive probabilities) all equal the textbook log-density; so does the direct log-density of Exponential, StudentT, Cauchy, Poisson and Geometric (p<1) and the family path of Binomial. Exceptions (defects), with the exact offsets proved: Exponential's family path (2 ln lambda), Geometric's (ln(1-p)), Binomial's direct path (missing coefficient), both NegativeBinomial paths, NaN at p=1 and at zero probabilities; Poisson's family path uses the tabulated ln k!.", "quantifier": "every valid parameter, every x in the support, each of the 13 families", "why_tests_cant": "Real-valued parameters.", "anchors": ["measures-distributions/src/distributions"]}
{"id": "C30", "title": "Natural-parameter round trips", "statement": "from_natural(to_natural(d)) = d for every valid Normal, Exponential, Gamma, Beta, ChiSquared, Bernoulli, Poisson, Geometric, Categorical with interior parameters, to_natural(from_natural(eta)) = eta for every admissible eta, and from_natural panics exactly outside the admissible set. Exceptions: Binomial and NegativeBinomial always panic; Geometric with p = 1 does not round-trip.", "quantifier": "every valid parameter", "why_tests_cant": "Real-valued parameters.", "anchors": ["measures-distributions/src/distributions"]}
{"id": "C31", "title": "Discrete distributions are normalised", "statement": "The exponentials of the log-densities sum to exactly 1 over the support: Bernoulli (direct, every p; family path, 0<p<1), Poisson direct (family path: within 1e-14), Geometric direct (p<1), Binomial family path (0<p<1), Categorical (direct: the sum of the stored probabilities, within 1e-10 of 1; family path: exactly 1). Exceptions (defects): Binomial direct is normalised only for n<=1; NegativeBinomial direct has total p^(r-1), its family path ((1-p)^2/(1-2p))^r; Geometric family path has total 1-p, and Geometric with p=1 has log-density NaN at its only outcome.", "quantifier": "every valid parameter (n, r unbounded); all support points (infinite for Poisson, geometric, negative binomial)", "why_tests_cant": "Infinite sums.", "anchors": ["measures-distributions/src/distributions/discrete"]}
{"id": "C32", "title": "Continuous distributions are normalised", "statement": "The density (exponential of the log-density) integrates to exactly 1 over the real line, is a number (never NaN or +inf as log-density) at every real point and vanishes off the support: Normal (direct, family path, compiled closure), StdNormal, Exponential (direct, compiled closure), Gamma, Beta, ChiSquared (direct; family path over the support), StudentT, Cauchy. Exception (defect): the family path of Exponential integrates to 1/rate^2.", "quantifier": "every parameter the constructor accepts that is a real number", "why_tests_cant": "Improper integrals.", "anchors": ["measures-distributions/src/distributions/continuous"]}
{"id": "C33", "title": "Support and density are consistent", "statement": "Outside the support the direct log-density is minus infinity for every family; in_support is the textbook support; inside it (interior parameters) the log-density is finite; the family path of Binomial and Categorical is minus infinity outside. Exceptions: the family path of the other families has no support check; boundary parameters give NaN or minus infinity inside the support.", "quantifier": "every distribution, parameter and point", "why_tests_cant": "All points, all paths.", "anchors": ["measures-distributions/src/distributions"]}
{"id": "C34", "title": "Constructors accept exactly the valid parameters", "statement": "new() succeeds iff the checked constraints hold (positive scale/shape/rate, probability in range), in exact arithmetic and in binary64 with NaN rejected there, and keeps the parameters; Categorical::new accepts exactly non-negative vectors summing to 1 within 1e-10, uniform(k) exactly k>0; Mixture::new exactly matching lengths and total within 1e-10. Exceptions: infinite scales and NaN/infinite locations are accepted; negative mixture weights are accepted.", "quantifier": "every f64 parameter", "why_tests_cant": "NaN, infinities, boundaries.", "anchors": ["measures-distributions/src/distributions", "measures-combinators/src/measures/combinators/superposition.rs"]}
{"id": "C35", "title": "Reported moments are the moments of the density", "statement": "mean() and variance() equal the expectation and variance computed from the distribution's own log-density: Bernoulli, Geometric (p<1), Categorical, Binomial (family path), Poisson (rate = mean), Normal, Exponential, Gamma, Beta, ChiSquared. Exceptions (defects): the negative binomial's accessors are those of the textbook distribution, not of its log-density; the binomial's are not the moments of its direct log-density.", "quantifier": "every valid parameter", "why_tests_cant": "Infinite sums/integrals over all parameters.", "anchors": ["measures-distributions/src/distributions"]}
{"id": "C36", "title": "Product measures", "statement": "The joint log-density is the sum of the marginal log-densities (so the joint density is the product and the mass of a finite rectangle is the product of the masses), joint support is the conjunction, the root is the product of the roots, relative densities of products add where the base densities are finite, and products nest associatively at every point, infinities and NaN included.", "quantifier": "every pair of measures, every point", "why_tests_cant": "Any measures.", "anchors": ["measures-combinators/src/measures/combinators/product.rs"]}
{"id": "C37", "title": "Weighted, integral and Dirac measures", "statement": "A weighted measure's density is exp(log-weight) times the base density, weights compose additively, the mass of any finite set is scaled; an integral measure's density is exp(f) times the base density, a constant integrand is a weight; relative to the base they are the weight and the integrand; support and root are the base's; Dirac is supported exactly at its point.", "quantifier": "every base measure, weight, function, point", "why_tests_cant": "Any measures.", "anchors": ["measures-combinators/src/measures/derived/weighted.rs", "measures-combinators/src/measures/derived/integral.rs", "measures-combinators/src/measures/derived/dirac.rs"]}
{"id": "C38", "title": "Mixture densities", "statement": "With non-negative weights and components whose log-densities are real or -inf, a mixture's log-density is ln of the weighted sum of component densities for any number of components; it is -inf iff every pair has zero weight or density; it does not depend on component order; support is the union of positively weighted supports; a mixture of normalised discrete measures with a probability vector is normalised, and interval masses are the weighted sums; two-component mixtures normalise any weights with positive sum; uniform mixtures, also of two measures, average the component densities; root_measure is the first component's and panics only without components. Exceptions: components with NaN or +inf densities, negative weights.", "quantifier": "every list of components and weights, every point", "why_tests_cant": "Any number of components; infinities.", "anchors": ["measures-combinators/src/measures/combinators/superposition.rs"]}
{"id": "C39", "title": "Pushforward densities obey change of variables", "statement": "The log, exp, linear (a<>0) and logit transforms have mutually inverse forward and inverse on the stated domains and a log-Jacobian equal to the log absolute derivative of the inverse; for every transform with these properties the pushforward gives the image of an interval exactly the base mass of the interval, and its density is the base density times the absolute derivative. Exception: outside the image (y<0 for exp) a pushforward of a Normal claims support and answers NaN.", "quantifier": "every point, every slope/intercept, every base density", "why_tests_cant": "Calculus statement over all points.", "anchors": ["measures-combinators/src/measures/combinators/pushforward.rs"]}
{"id": "C40", "title": "Combinatorial base measures", "statement": "FactorialMeasure has log-density -v with |v - ln(k!)| <= 4e-15 for every k (table for k<=20, Stirling series beyond; for k>=21 the series never exceeds ln(k!) and errs by at most 1/(1188 k^9)), BinomialCoefficientMeasure has log-density ln C(n,k) and is supported exactly on k<=n with -inf beyond, NegativeBinomialCoefficientMeasure (r>=1) has ln C(x+r-1,x); hence the Poisson family path is within 4e-15 of the log probability.", "quantifier": "every k, n, r (unbounded)", "why_tests_cant": "Unbounded integers.", "anchors": ["measures-combinators/src/measures/derived/factorial.rs", "measures-combinators/src/measures/derived/binomial_coefficient.rs", "measures-combinators/src/measures/derived/negative_binomial_coefficient.rs"]}
{"id": "C41", "title": "Symbolic builders evaluate to the textbook formulas", "statement": "normal_log_pdf, gaussian_kernel, logistic, softplus, polynomial, quadratic_term, linear_term, log_normal_constant evaluate to their formulas, and normal_log_pdf equals Normal's log-density.", "quantifier": "every sub-expression argument, every binding, every coefficient list", "why_tests_cant": "Any arguments and degree.", "anchors": ["symbolic-math/src/lib.rs:builders", "symbolic-math/src/expr.rs:builders"]}
{"id": "C42", "title": "Bayesian model builders", "statement": "normal_likelihood, normal_prior, posterior_log_density, hierarchical_normal and mixture_likelihood evaluate to the formulas they document: posterior = likelihood + prior, mixture = ln sum w_i exp(l_i), -inf for no components, a panic exactly when lengths differ. Exceptions: the hierarchical model's tau is not the deviation of mu, and an all-zero weight vector evaluates to an error.", "quantifier": "every variable naming, every number of components, every binding", "why_tests_cant": "Any number of components.", "anchors": ["measures-bayesian/src/bayesian/mod.rs:expressions"]}
{"id": "C43", "title": "Final-tagless distribution patterns equal the distributions", "statement": "Under direct evaluation the patterns for normal, standard normal, Cauchy and (for x >= 0) exponential equal the textbook log-density; DistributionEval's normal and exponential do too with -inf outside the support, its gamma for shapes up to 12, and for every shape above 12 its log-gamma is below the true one by at most 1/(12 shape) and its log-density above the textbook one by at most as much. Exceptions (defects): the exponential pattern gives a finite value above the mode for negative x; the Poisson pattern subtracts ln x instead of ln x! (right only at 1 and 2, +inf at 0, too large from 3 on); the gamma, beta and Student-t patterns panic in every interpreter, as do the gamma, log-gamma, beta, log-beta, erf and erfc functions and every operation of the distribution interface (log-density, cdf, survival, their logarithms, mgf, characteristic function, moments, entropy, divergence, Fisher information).", "quantifier": "every valid parameter and point, every interpreter", "why_tests_cant": "Real parameters.", "anchors": ["measures-distributions/src/distributions/final_tagless.rs:patterns", "measures-exponential-family/src/exponential_family/final_tagless.rs:patterns"]}
{"id": "C44", "title": "Automatic JIT registry", "statement": "A pattern registered for a type is the one found for it (the latest wins, others untouched) and an optimizer holding it compiles that type. Exception (a defect): the public entry points auto_jit and auto_symbolic use a fresh empty registry, and auto_jit_impl! registers nothing, so they fail for every type.", "quantifier": "every registry content and type name", "why_tests_cant": "Histories of registrations.", "anchors": ["measures-exponential-family/src/exponential_family/auto_jit.rs"]}
{"id": "C45", "title": "Gradients returned by the autodiff helper are derivatives", "statement": "value_and_grad's first component is the value f(x). Its second component is the value again, so it is the derivative only at points where f'(x) = f(x) (a defect); the AD number returned by at_ad is untouched.", "quantifier": "every differentiable function and point", "why_tests_cant": "Over all functions.", "anchors": ["measures-core/src/core/autodiff.rs"]}
{"id": "C46", "title": "Numeric conversions preserve values they can represent", "statement": "safe_convert between integer types returns the same integer for every |z| <= 2^53 in the target's range and the default (safe_convert_or: the fallback) outside it; integer to f64 is exact up to 2^53; f64 and f32 survive unchanged, also f32 through f64; f64 to f32 rounds to nearest and overflows to infinity; every integer goes to the nearest f64; where the target type refuses a literal, float_constant gives its one, infinities or NaN for those literals and zero for any other number; safe_float_convert reports which step failed; f64 to integer truncates, with default/fallback for NaN, infinities and out-of-range values. Exception: integers above 2^53 are changed (2^53+1 becomes 2^53, u64::MAX becomes 0).", "quantifier": "every value of every numeric type", "why_tests_cant": "All integers, including above 2^53.", "anchors": ["measures-core/src/core/utils.rs"]}
{"id": "C47", "title": "Dot products and array helpers", "statement": "dot is the sum of products, for arrays and vectors alike; it is symmetric and linear; dot of array_sub is the difference of dots; sums of sufficient statistics and sum_arrays are component-wise. Exception: vectors of different lengths are silently truncated to the shorter.", "quantifier": "every vector length and content", "why_tests_cant": "Any length.", "anchors": ["measures-core/src/traits/dot_product.rs", "measures-exponential-family/src/exponential_family/array_utils.rs"]}
{"id": "C48", "title": "Constant pools remember the last definition of each name", "statement": "After any sequence of add_constant calls, looking up a name gives the value, the defining expression and the dependency list of the last call for that name, and nothing for names never added. The advertised evaluation order stays empty, so it does not list the constants.", "quantifier": "every sequence of add_constant calls", "why_tests_cant": "Histories.", "anchors": ["symbolic-math/src/expr.rs:ConstantPool"]}
{"id": "C49", "title": "Transform Jacobians of linear maps", "statement": "A linear transform computes A x + b with the entries as converted (through f32), panics exactly on mismatched shapes; component-wise transforms apply the function entrywise. Exception (a defect): the reported log absolute determinant is 0 for every matrix, so it is wrong unless |det| = 1; component-wise transforms also always report 0, so scaling every entry by c is reported wrongly whenever |c| is not 1.", "quantifier": "every matrix and vector", "why_tests_cant": "Any dimension.", "anchors": ["measures-combinators/src/measures/combinators/transform.rs"]}
{"id": "C50", "title": "Operator sugar denotes the operation", "statement": "Building with +,-,*,/,unary -, powf, square, cube, abs, ln, exp, sqrt, sin, cos and mixing with f64 evaluates to the corresponding operation on the operands' values, and in exact arithmetic abs evaluates to the absolute value. On f64 abs is sqrt(x*x) and overflows for large x.", "quantifier": "every operand, every binding", "why_tests_cant": "All operands.", "anchors": ["symbolic-math/src/expr.rs:operator impls", "symbolic-math/src/expr.rs:Expr::abs"]}
{"id": "C51", "title": "The caches never deadlock and every call is answered once", "statement": "In every state reached by any number of threads calling the cache functions, if some call is unfinished then some thread can take a step; the calls in progress finish within seven steps per thread whatever the scheduler does; when all threads are idle there is exactly one answer per call made; no two threads are ever inside the sections guarded by one mutex.", "quantifier": "any number of threads, every history, every interleaving of the lock operations", "why_tests_cant": "Deadlocks depend on schedules that a test run does not control; the hit path holds one lock while taking another.", "anchors": ["symbolic-math/src/expr.rs:Expr::simplify_cached", "symbolic-math/src/expr.rs:Expr::evaluate_cached", "symbolic-math/src/expr.rs:clear_caches", "symbolic-math/src/expr.rs:get_cache_stats"]}
{"id": "C52", "title": "Final-tagless exponential-family operations", "statement": "dot_product is the sum of products and panics exactly when the lengths differ; the sums of sufficient statistics are coordinatewise, panicking exactly when a later vector is shorter (generic version) or longer (array version) than the first; the i.i.d. log-density computed from summed statistics equals the sum of the individual log-densities; log_sum_exp is ln of the sum of exponentials in exact arithmetic. Exceptions (defects): the array dot product silently ignores excess entries; log_sum_exp is not numerically stable as documented: it overflows to infinity when exp does.", "quantifier": "every parameter vector, every sample of any size, every interpreter", "why_tests_cant": "Any dimension, any sample size, any real values.", "anchors": ["measures-exponential-family/src/exponential_family/final_tagless.rs:ExponentialFamilyExpr", "measures-exponential-family/src/exponential_family/final_tagless.rs:ExpFamEval"]}
{"id": "C53", "title": "Evaluators are accurate in binary64", "statement": "Assume the platform's ln, exp, sin, cos and pow err by at most c units in the last place. Then for every expression whose exact value exists and whose intermediate results do not overflow, evaluate and evaluate_single_var return a finite number whose distance from the exact real value is at most the bound obtained by adding half an ulp per arithmetic operation and c units per library call, propagated through the expression; consequently compiled code and the interpreter agree up to the sum of their bounds.", "quantifier": "every expression, every assignment of finite numbers, every math library meeting the accuracy assumption", "why_tests_cant": "Rounding errors depend on every intermediate value; no sample of inputs bounds them for all expressions.", "anchors": ["symbolic-math/src/expr.rs:Expr::evaluate", "symbolic-math/src/expr.rs:Expr::evaluate_single_var", "symbolic-math/src/jit.rs:GeneralJITCompiler::compile_expression"]}
{"id": "C54", "title": "Sums, products and polynomials are accurate in binary64", "statement": "For any number of finite terms (up to 2^40; 2^20 for log-sum-exp) that do not overflow: the sum is within 2n units of the exact sum relative to the sum of magnitudes; dot products and each coordinate of a linear map within 2(n+1) units relative to the sum of |a_i b_i|; Horner's rule within 4n units relative to the polynomial with absolute coefficients at |x|; log_sum_exp of the superposition code never overflows and is within O(n(n+c)) units relative to |result| + 2n, however large the terms.", "quantifier": "every list length in range, all finite values below the overflow limits, every math library meeting the accuracy assumption", "why_tests_cant": "Error growth with length and cancellation cannot be exhausted by examples.", "anchors": ["measures-combinators/src/measures/combinators/superposition.rs:log_sum_exp", "measures-combinators/src/measures/combinators/transform.rs:LinearTransform", "measures-exponential-family/src/exponential_family/final_tagless.rs:ExponentialFamilyExpr", "symbolic-math/src/final_tagless.rs:polynomial"]}
{"id": "C55", "title": "Log-densities are accurate in binary64", "statement": "With a math library that errs by at most c units, the direct log-densities of Normal, Exponential, Gamma, Beta (when alpha+beta is exact), ChiSquared, StudentT (when nu+1 is exact), Cauchy, Bernoulli, Poisson, Geometric and Categorical computed in binary64 are finite and within a stated small multiple of one unit of the logarithm of the textbook density, relative to the magnitude of the terms that enter the sum; for Binomial and NegativeBinomial the same holds for the kernel they compute (the coefficient is missing, see C29); the summed log-density of an independent normal sample is accurate with one extra unit per observation.", "quantifier": "all finite parameters in the domain and all points of the support within explicit magnitude limits, every math library meeting the accuracy assumption", "why_tests_cant": "Accuracy must hold at every parameter and observation; cancellation and underflow happen at particular inputs.", "anchors": ["measures-distributions/src/distributions/continuous/normal.rs", "measures-distributions/src/distributions/continuous/gamma.rs", "measures-distributions/src/distributions/continuous/cauchy.rs", "measures-distributions/src/distributions/discrete/poisson.rs", "measures-exponential-family/src/exponential_family/iid.rs"]}
{"id": "C56", "title": "Custom log-densities evaluate and compile consistently", "statement": "CustomSymbolicLogDensity::evaluate uses the caller's values where given and the stored parameters otherwise; evaluate_single overrides one name. A density with exactly one non-parameter name compiles iff that name sorts before every parameter name, and then the compiled call returns what evaluate_single returns (exactly for exactly rounded operations, within the accumulated error bounds otherwise); with two unknown names compilation always fails. A simplified density evaluates, under the same bindings, to an equal binary64 number whenever every subexpression is a finite number and no rule that trades library calls applies (C58). Exceptions (defects): a density in x with parameter mu evaluates but does not compile; a density without data variable compiles to code that replaces its first parameter by the argument; simplify leaves the list of names stale, so a simplified density may stop compiling.", "quantifier": "every expression, every parameter map, every argument", "why_tests_cant": "The outcome depends on the alphabetical order of arbitrary names and on arbitrary expressions.", "anchors": ["symbolic-math/src/jit.rs:CustomSymbolicLogDensity", "symbolic-math/src/jit.rs:compile_custom_expression", "symbolic-math/src/jit.rs:generate_custom_log_density"]}
{"id": "C57", "title": "Compilation statistics count what they say", "statement": "complexity() is the number of operators and functions; count_constants the number of literals; estimate_complexity leaves plus operators plus three per function; the reported instruction count is the documented combination of these counts plus one per argument plus two, and embedded_constants the number of constants supplied. For +,-,*,/ over the arguments the reported count equals the number of instructions generated plus that overhead. The estimated speedup is finite, between 15 and 100, non-decreasing in the complexity, and equals min(15+2 sqrt(complexity),100) up to 1e-13; a compiled expression reports it at complexity(), a compiled final-tagless expression at estimate_complexity, and the latter is never the smaller. Exception (defect): with functions the reported count underestimates the code.", "quantifier": "every expression, every list of arguments and constants, every complexity up to 2^64", "why_tests_cant": "Counts must be right for trees of every shape and size; monotonicity of the rounded formula needs all pairs of inputs.", "anchors": ["symbolic-math/src/jit.rs:CompilationStats", "symbolic-math/src/jit.rs:estimate_clif_instructions", "symbolic-math/src/jit.rs:estimate_speedup", "symbolic-math/src/final_tagless.rs:JITRepr::estimate_complexity", "symbolic-math/src/final_tagless.rs:JITRepr::count_constants", "symbolic-math/src/expr.rs:Expr::complexity"]}
{"id": "C58", "title": "Simplification on binary64 numbers", "statement": "In binary64, if every subexpression of an expression evaluates to a finite number, and no rule that trades one library call for another applies (product of equal factors to a square, cancelled ln/exp/sqrt pairs, merged powers), then the simplified expression also evaluates to a finite number that compares equal (==) to the original value, whatever rounding happens along the way; the platform library need only satisfy the exact cases fixed by ISO C Annex F. Exception (defect): ln(exp(x)) is simplified to x although for every library accurate to 1000 units the two values differ at x = 2^-60.", "quantifier": "every expression, every binary64 environment, every library with the Annex F special values", "why_tests_cant": "Equality of rounded results must hold for every tree and every binary64 input; sampling cannot exclude one input where a rewrite shifts the last bit.", "anchors": ["symbolic-math/src/expr.rs:Expr::simplify", "symbolic-math/src/expr.rs:Expr::evaluate"]}
{"id": "C59", "title": "Combinators in binary64", "statement": "In binary64, with a math library accurate to c units: weighted, integral, product and relative log-densities add one rounding to the errors of their parts; a mixture's log-density is within an explicit bound of the log of the weighted sum of the densities, however far apart the components are; Mixture::new accepts up to 10000 non-negative weights whose sum is within 0.9e-10 of one and refuses those 1.1e-10 or more away; uniform mixtures of up to 200000 components and two-component mixtures of any positive weights are never refused. Pushforwards add the errors of the base density and of the log-Jacobian; linear transforms are accurate to a few units, also there and back; the exponential pushforward of a normal is the log-normal density; the logit transform is accurate on [-600,600]. Exception (defect): where exp overflows, the inverse logit of y >= 710 is NaN and the log-Jacobian of y <= -710 is minus infinity.", "quantifier": "every list of components and weights, every binary64 argument in the stated ranges, every library meeting the accuracy bounds", "why_tests_cant": "Error bounds and the acceptance of rounded weights must hold for every combination of binary64 numbers and every number of components.", "anchors": ["measures-combinators/src/measures/derived/weighted.rs", "measures-combinators/src/measures/derived/integral.rs", "measures-combinators/src/measures/combinators/product.rs", "measures-combinators/src/measures/combinators/superposition.rs:MixtureMeasure::new", "measures-combinators/src/measures/combinators/superposition.rs:log_sum_exp", "measures-combinators/src/measures/combinators/pushforward.rs"]}
{"id": "C60", "title": "Exponential-family paths in binary64", "statement": "In binary64, with a math library accurate to c units, the exponential-family log-density of every family is a finite number within an explicit bound of the value it has in exact arithmetic (C29): normal relative to (mu/sd)^2+(x/sd)^2+|ln sd|+2, standard normal, exponential, gamma, beta, chi-squared, Bernoulli, binomial, Poisson, geometric, negative binomial with p <= 3/4, categorical with up to 2^20 categories of probability at least 2^-400. For families parametrised by a logit the number of lost units grows with |logit p|. The precomputed normal and exponential densities and the normal decomposition are as accurate as the direct log-density, and the direct and the family path of the normal differ by at most the sum of their bounds. Exception (defect): the normal family path cancels catastrophically far from the origin: at mu = x = 2^60, sd = 1 it returns 0 although the log-density is below -3/4 and the direct path is accurate.", "quantifier": "every binary64 parameter and observation in the stated ranges, every library meeting the accuracy bounds", "why_tests_cant": "Rounding errors must be bounded for every combination of binary64 parameters and observations and every admissible math library.", "anchors": ["measures-exponential-family/src/exponential_family/traits.rs:exp_fam_log_density", "measures-distributions/src/distributions"]}
{"id": "C61", "title": "Combinatorial base measures in binary64", "statement": "In binary64, with a math library accurate to c units, the log-density of the factorial measure is within 2(c+60) units of -ln k! relative to the size of Stirling's terms, through both the table and the series, for every k up to 2^40; those of the binomial and negative binomial coefficient measures are within 2(c+2) units of the log coefficients relative to the log factorials they subtract.", "quantifier": "every count up to 2^40, every library meeting the accuracy bounds whose log-gamma is ln (n-1)! at the integers", "why_tests_cant": "All counts on both sides of the switch from table to series, every admissible math library.", "anchors": ["measures-combinators/src/measures/derived/factorial.rs", "measures-combinators/src/measures/derived/binomial_coefficient.rs", "measures-combinators/src/measures/derived/negative_binomial_coefficient.rs"]}
{"id": "C62", "title": "Natural parameters and back in binary64", "statement": "In binary64, with a math library accurate to c units, from_natural(to_natural(d)) succeeds and is within an explicit number of units of d: exactly d for the exponential; normal (10 units in sd, 18 in mu); gamma, beta and chi-squared with shapes at least 2^-45 (absolute error, since shape - 1 is stored; the gamma rate is exact); Bernoulli, Poisson and geometric, where the number of units grows with the size of the natural parameter; categorical with up to 10000 categories, which comes back divided by the sum of its probabilities. from_natural alone computes the logistic function, the exponential and the softmax to a stated number of units. The categorical constructor accepts every list of up to 10000 numbers summing to 1 within 9e-11 and rejects every one off by 1.1e-10 or more; uniform probabilities are within 2 units of 1/k. Exceptions: gamma and beta shapes below 2^-54 and degrees of freedom below 2^-53 panic on the way back; so does a geometric p below 2^-54 when exp(ln 1) = 1; Bernoulli and one-parameter categorical panic when the exponential overflows; Poisson then gets an infinite rate, and panics on underflow.", "quantifier": "every binary64 parameter in the stated ranges, every library meeting the accuracy bounds", "why_tests_cant": "Rounding errors must be bounded for every binary64 parameter and every admissible math library; failures occur only at extreme parameters.", "anchors": ["measures-exponential-family/src/exponential_family/traits.rs:from_natural,to_natural", "measures-distributions/src/distributions"]}
{"id": "C63", "title": "The log-partition generates mean and variance", "statement": "For every valid Bernoulli and binomial (0 < p < 1), Poisson, normal, gamma, chi-squared and categorical (positive probabilities) distribution, the reported log-partition is the textbook function of the reported natural parameters; its first and second derivatives with respect to a natural parameter are the reported mean and variance (normal: both parameters, for x and x^2; gamma and chi-squared: the parameter of x; categorical: each probability q/s and (q/s)(1-q/s), s the sum of the stored probabilities). For beta and the standard normal the value is the textbook one. The log-density assembled by the library is eta.T(x) - A(eta) + base density for every family in default form; categorical overrides it with minus infinity outside the support. Exceptions (defects): the exponential log-partition is negated; the geometric one lacks the term eta, so its derivative is the mean minus 1; the negative binomial reports the log-odds as natural parameter with a binomial log-partition, whose derivatives are mean*(1-p) and variance*(1-p)^3.", "quantifier": "every accepted parameter, in exact arithmetic", "why_tests_cant": "An identity between a function, its derivatives and the moments for all parameters.", "anchors": ["measures-exponential-family/src/exponential_family/traits.rs:log_partition,to_natural,exp_fam_log_density", "measures-distributions/src/distributions"]}
{"id": "C64", "title": "Densities at dual numbers return derivatives", "statement": "When the generic log-density code is run on forward-mode dual numbers whose value and tangent are the value and derivative of parameter and sample functions of one variable, the result's value and tangent are the value and derivative of the true log-density along those functions, at every point strictly inside the parameter space and support: direct log-densities of normal, exponential, gamma, beta, chi-squared, Student t, Cauchy, Bernoulli, binomial and negative binomial (without their combinatorial constant), Poisson, geometric and categorical; the family formula for normal, standard normal, gamma, beta, chi-squared; IID sums by the family formula (normal, gamma, beta, chi-squared, exponential and geometric with the defects of their log-partition, Bernoulli) and by the fallback, for any number of samples; mixtures of any number of components with positive weights, whichever component is largest and whether or not several tie; every program written against the evaluator interface, away from the edges of the domains; polynomials, where the tangent equals the library's own derivative routine. Exceptions: a component of weight exactly zero makes the tangent of the mixture NaN although its value is right; value_and_grad returns the value twice and loses the tangent (C45).", "quantifier": "every parameter and sample function differentiable at the point, every number of samples and components, every program", "why_tests_cant": "Derivatives of all log-densities along all curves, programs of any size and collections of any length.", "anchors": ["measures-core/src/core/autodiff.rs:AutoDiffMeasure,LogDensityAD", "measures-distributions/src/distributions", "measures-combinators/src/measures/combinators/superposition.rs:log_density_wrt_root", "measures-exponential-family/src/exponential_family/traits.rs:compute_iid_exp_fam_log_density", "mathjit/src/final_tagless.rs"]}
{"id": "C65", "title": "Every distribution through the standard interface", "statement": "Through in_support, log_density().at(x), log_density().wrt(other).at(x), the shared-root sum and the batch call, every distribution answers as the distribution with its textbook density: inside the support it reports support and the logarithm of a positive density (normal, exponential on [0,inf), gamma and chi-squared on (0,inf), beta on (0,1), Student t, Cauchy, Bernoulli with 0<p<1, Poisson, geometric on 1,2,... with p<1, categorical with positive weights), outside it reports no support and minus infinity. Relative to any other such measure it reports the logarithm of the ratio of the densities on the common support, plus infinity where only the base vanishes, minus infinity where only the measure vanishes, NaN where both vanish; the shared-root sum reports the logarithm of the product and minus infinity wherever either vanishes; a batch is the list of its points' values. No distribution is zero-sized, and the exponential-family marker is set for all but Student t and Cauchy. Exceptions: binomial and negative binomial report their kernels without the combinatorial factor, the negative binomial with success and failure exchanged (C29); relative to the zero-sized root measure the answer depends on the struct layout (C25), so there the two fields are assumed to have different addresses.", "quantifier": "every valid parameter, every real or natural sample, every pair of distributions, every legal layout, every batch", "why_tests_cant": "Infinitely many parameters and samples and every pair of distributions.", "anchors": ["measures-core/src/core/density.rs:LogDensity,EvaluateAt,SharedRootMeasure,LogDensityBatch", "measures-core/src/core/measure.rs:Measure,LogDensityBuilder", "measures-distributions/src/distributions"]}
{"id": "C66", "title": "Accessors, defaults, special cases and symmetries", "statement": "Parameter accessors return what the constructor was given: location and scale (Cauchy), degrees of freedom (Student t), number of categories (the length of the list, or the requested number for the uniform one, and the support is the numbers below it); the log-odds accessors of Bernoulli, Binomial and NegativeBinomial are ln(p/(1-p)) and the failure probability of Geometric and NegativeBinomial is 1-p. The default value of each distribution is what its constructor returns on the documented parameters, in exact arithmetic and in binary64. Families agree on their common members: the default normal with the standard normal; Gamma(1,b) and Exponential(b), and ChiSquared(2) and Exponential(1/2), at every non-zero point (support and value); the default beta with the uniform density; the default Student t with the standard Cauchy; Binomial(1,p) with Bernoulli(p); NegativeBinomial(1,p) at k with Geometric(p) at k+1; Categorical [1-p,p] with Bernoulli(p) in every arithmetic; the joint log-mass of a 0/1 sequence with the direct Binomial log-density at the number of ones. Pushing a normal, Cauchy or gamma through a linear map gives the normal, Cauchy or gamma with moved parameters. Beta(a,b) at x equals Beta(b,a) at 1-x; normal, Cauchy and Student t are symmetric about their centre; exchanging point and location of a normal or Cauchy, or negating the point of a Student t, leaves the binary64 result unchanged bit for bit. Exceptions: at zero Gamma(1,b) reports minus infinity and Exponential(b) the logarithm of its rate; from_natural of the standard normal accepts every parameter vector and returns the standard normal, whose natural parameters are (0,-1/2) only.", "quantifier": "every valid parameter, every sample, every 0/1 sequence, every libm", "why_tests_cant": "Equalities between families at all parameters and samples; bit-for-bit equalities over all doubles and all libm implementations.", "anchors": ["measures-distributions/src/distributions/continuous", "measures-distributions/src/distributions/discrete", "measures-combinators/src/measures/combinators/pushforward.rs:linear_transform"]}
{"id": "C67", "title": "Conjugate posteriors", "statement": "Adding the log-density of a prior and the joint log-density of the data gives, at every parameter value, the log-density of the textbook conjugate posterior plus a constant that does not depend on the parameter and is the logarithm of the integral of prior times likelihood; the posterior's parameters are accepted by its constructor. Beta prior with Bernoulli (family joint), Binomial, Geometric and NegativeBinomial (direct log-densities as the code defines them) data; gamma prior with Poisson and Exponential (direct) and Gamma of known shape (family joint) data; normal prior on a mean with normal data of known deviation (family joint), and the same posterior from the symbolic normal-likelihood, normal-prior and posterior builders for one observation. Exception: through the family joint of Exponential the remainder is not constant: it grows by twice the number of samples times the logarithm of the rate.", "quantifier": "every valid prior, every data set of any size, every parameter value", "why_tests_cant": "An identity in the parameter for data sets of any size; the constant is an integral over all parameter values.", "anchors": ["measures-distributions/src/distributions", "measures-exponential-family/src/exponential_family/iid.rs:iid_log_density,iid_log_density_fallback", "measures-bayesian/src/bayesian/mod.rs:posterior_log_density,normal_likelihood,normal_prior"]}
{"id": "C68", "title": "The exported LaTeX, read as a formula", "statement": "The LaTeX text of an expression, read with the usual conventions (sums of products of signed factors, a number before a name multiplies it, superscripts bind tightest, a power of e is the exponential), has exactly one reading, and that reading has the value of the expression wherever the expression has one, provided the variable names read as one symbol other than e, the numbers' texts are read back, no sum is multiplied or subtracted, and every base of a power is a name, an unsigned number, a fraction, a root or a function call. Exceptions (defects, brackets are not written): a multiplied sum, a subtracted difference and a power of a negation read as expressions of other values; a power of a power is not a formula (double superscript); a variable named e raised to a power prints like the exponential.", "quantifier": "every expression, every formatting of numbers, every assignment of values to the variables", "why_tests_cant": "The reading depends on how arbitrarily nested subexpressions meet without brackets; no finite set of expressions covers the combinations.", "anchors": ["symbolic-math/src/expr.rs: Expr::to_latex"]}
{"id": "C69", "title": "Numbers that travel through text", "statement": "A constant given to the JIT interpreter at any displayable type is displayed and read back: if its text is a decimal numeral (sign, digits, point, exponent) the stored constant is the binary64 number nearest to that numeral, ties to even, overflow to infinity, with the written sign; a binary64 constant is therefore kept exactly (infinities, NaN and the sign of zero included) and an integer is kept exactly up to 2^53; the call panics exactly when the text is not a number. A term printed by the rewriting engine with constants written in any notation that reads back, quoted names with balanced parentheses and no square root is returned as exactly that term by the optimizer; with a square root the input is returned. Exception (defect): a binary32 constant is not kept (0.1f32 becomes the binary64 number nearest to 0.1).", "quantifier": "every numeral, every binary64 number and integer, every text, every term and every way of writing its constants", "why_tests_cant": "The digits, exponents and texts are unbounded; a handful of literals cannot show that every text is read as the nearest number or that no other text is accepted.", "anchors": ["symbolic-math/src/final_tagless.rs: JITEval::constant", "symbolic-math/src/optimization.rs: egglog_to_expr, optimize"]}
{"id": "C70", "title": "Joint log-densities of samples in binary64", "statement": "In binary64, with a math library accurate to c units, the joint log-density of an independent sample of up to 2^40 observations is a finite number within a stated multiple (c plus the sample size plus a small constant) of one unit of the logarithm of the product of the densities, relative to the summed magnitudes of the terms: through the log-density decomposition of Normal, Cauchy and StudentT (nu+1 exact), and through summed sufficient statistics for the Normal, StdNormal, Gamma, Beta (alpha+beta exact), ChiSquared, Poisson, Bernoulli and Binomial families, and the Categorical family up to its normalisation by the sum of the probabilities (probabilities at least 2^-400, at most 2^20+1 categories). The two normal paths differ by at most the sum of their bounds. Exceptions (defects): the exponential family is off by 2 n ln rate the geometric family by n ln(1-p) and the negative binomial family (p up to 3/4) by minus ln(1-p) times the total count, up to the same kind of rounding bound; the normal family path cancels catastrophically away from the origin: for a sample of any size n at the mean 2^60 with unit deviation it returns 0, although the joint log-density is below -3n/4 and the decomposition is accurate.", "quantifier": "every finite parameter and sample of any length up to 2^40 within explicit magnitude limits, every math library meeting the accuracy assumption", "why_tests_cant": "Rounding errors accumulate with the sample and depend on every observation; the bound must hold for every sample and size.", "anchors": ["measures-core/src/core/log_density_decomposition.rs: evaluate_iid", "measures-exponential-family/src/exponential_family/traits.rs: compute_iid_exp_fam_log_density", "measures-distributions/src/distributions/continuous/normal.rs", "measures-distributions/src/distributions/continuous/student_t.rs", "measures-distributions/src/distributions/continuous/cauchy.rs"]}
{"id": "C71", "title": "When compiled code stops the process, and its operators on all other arguments", "statement": "A call of a compiled expression stops the process with a hardware trap exactly when one of its exponentials, or one of its powers with an exponent other than the literals 2, 3, 4, 0.5, 1 and 0, traps at the values of its operands; an expression without those never does, whatever its arguments (so the Gaussian expression never does). The compiled exponential traps exactly on NaN, on infinities, from 1488522235.9098 upward and from its next-larger opposite downward. A compiled power returns for every base when the exponent has magnitude at most two million, and traps for every base when the exponent is infinite or NaN. Defects on the remaining arguments, for all of them: outside the accurate range (magnitude 712 and above) the compiled exponential of an argument within -708 and 709 of a multiple of 4096 ln 2 is, within 1e-6 relative, the exponential of the distance, and for an argument 712 to 2128 above such a multiple it is negative, in particular for every argument of magnitude between 712 and 2126; the compiled logarithm returns a finite number of magnitude at most 711 for every argument including zero, negative numbers, infinities and NaN, ignores the sign (except for 1 and -1), and is between -709.1 and -708.3 for zero and all subnormal numbers; general powers ignore the sign of a base other than 1 and -1; the compiled sine and cosine of every argument of magnitude 4 to 2^190 have magnitudes at least 1.8 and 3.6.", "quantifier": "every expression, argument list and binary64 operand value", "why_tests_cant": "Traps kill the test process and occur at thresholds far from usual arguments; which of the 2^64 operand values and which expressions are affected cannot be enumerated.", "anchors": ["symbolic-math/src/jit.rs: generate_exp_call", "symbolic-math/src/jit.rs: generate_accurate_ln_call", "symbolic-math/src/jit.rs: generate_pow_call", "symbolic-math/src/jit.rs: generate_sin_call", "symbolic-math/src/jit.rs: generate_cos_call", "symbolic-math/src/jit.rs: compile_expression"]}
{"id": "C72", "title": "Single precision", "statement": "Measures are generic in their numeric type; with f32 every log-density (normal, exponential, gamma, beta when the sum of its parameters is exact, chi-squared, both Cauchy entry points, Bernoulli, binomial and negative-binomial kernels, Poisson up to 2^20, geometric, categorical) is a finite binary32 number within a stated small multiple of 2^-23 of the logarithm of the textbook density, relative to a stated magnitude, for every parameter and point in the stated ranges and every math library whose f32 ln and exp err by at most c units; Student t and the combinatorial coefficients, computed in f64 and converted, are within one unit, as is the beta log-partition for parameters between 2^-20 and 2^8. Arithmetic, square root and comparisons of the instance are the correctly rounded ones, decimal literals are the f64 literal rounded once more, and pi is the nearest f32. Constructors accept exactly the finite f32 parameters in their documented range and log-densities outside the support are minus infinity. Normal and Cauchy log-densities computed in f32 and in f64 from the same f32 inputs differ by at most the stated bound. Categorical::new and Mixture::new in f32 accept a list exactly when (being non-empty and non-negative, respectively of matching length) its running sum rounded after every addition is exactly 1, since the tolerance 1e-10 is below the spacing of f32 at 1; a uniform choice among 2^n <= 2^24 categories is accepted. Exception shown: Categorical::<f32>::uniform(10) panics.", "quantifier": "every binary32 parameter and point in the stated ranges, every count up to the stated limits, every math library within the stated accuracy, every weight list", "why_tests_cant": "Tests compare a handful of f32 values against f64 with a fixed tolerance; an error bound, and acceptance by the constructors, must hold for all of the 2^32 values of each argument.", "anchors": ["src/lib.rs", "measures-distributions/src/distributions/continuous/normal.rs: log_density_wrt_root", "measures-distributions/src/distributions/continuous/student_t.rs: log_pdf", "measures-distributions/src/distributions/continuous/cauchy.rs: log_pdf", "measures-distributions/src/distributions/discrete/categorical.rs: new, uniform", "measures-combinators/src/measures/combinators/superposition.rs: new", "measures-combinators/src/measures/derived/binomial_coefficient.rs", "measures-core/src/core/utils.rs: float_constant"]}
{"id": "C73", "title": "Exponential-family paths in single precision", "statement": "In f32, with a math library accurate to c units, the exponential-family log-density of every family is a finite number within an explicit bound, in units of 2^-23, of the value it has in exact arithmetic (C29), for parameters and observations in the stated ranges: normal relative to (mu/sd)^2+(x/sd)^2+|ln sd|+2, standard normal, exponential, gamma, beta with parameters between 2^-20 and 2^8, chi-squared, Bernoulli, binomial, Poisson and geometric up to 2^20, negative binomial with p <= 3/4, categorical with up to 2^18+1 categories of probability at least 2^-40. The precomputed normal and exponential densities and the normal decomposition are within small multiples of the direct log-density's bound, and the direct and the family path of the normal differ by at most the sum of their bounds. The factorial base measure is accurate for every count up to 2^20, and the binomial base measure is the binomial coefficient inside the support and minus infinity outside. The families whose partition or base measure goes through f64 (beta, binomial, negative binomial) have the same natural parameters and sufficient statistics, computed in f32, as the precision-generic families, and the negative-binomial base measure supports every count. Exception (defect): the normal family path cancels catastrophically: at mu = x = 16384, sd = 1 it returns 0 although the log-density is below -3/4 and the direct path is within 1/1000.", "quantifier": "every binary32 parameter and observation in the stated ranges, every library meeting the accuracy bounds", "why_tests_cant": "Rounding errors must be bounded for every combination of binary32 parameters and observations and every admissible math library; in single precision cancellation sets in at ordinary magnitudes such as 16384.", "anchors": ["measures-exponential-family/src/exponential_family/traits.rs: exp_fam_log_density", "measures-distributions/src/distributions", "measures-combinators/src/measures/derived/factorial.rs", "measures-combinators/src/measures/derived/binomial_coefficient.rs"]}
{"id": "C74", "title": "Interpreter-generic functions and log-densities in binary64", "statement": "Evaluated directly in f64 with a math library accurate to c units, the functions written against the interpreter-generic interface are finite numbers within explicit bounds of their exact values, for inputs in the stated ranges: the normal, standard-normal, exponential and Cauchy log-densities (relative to the stated magnitudes; the Poisson pattern is accurate for its own formula, which is not the Poisson density, C43), logistic and sigmoid (relative error, for arguments from -600 up), softplus (absolute error, for arguments up to 600), the unshifted log-sum-exp of up to 2^20 values in [-600,600], products over roots, dot products and the exponential-family and iid log-densities built on them. The distribution interpreter's own normal and exponential log-densities meet the same bounds and the exponential and gamma ones are minus infinity outside the support; its log-gamma and gamma log-density are accurate up to shape 12 and beyond it off by at most 1/(12 shape) plus rounding. Where exp overflows, logistic is zero. Exceptions (defects): softplus loses all relative accuracy to the left (at -60 it returns at most 2^-1000 although the value exceeds 10^-30) and is plus infinity wherever exp overflows although its value is within 1 of its argument.", "quantifier": "every binary64 input in the stated ranges, every list up to the stated lengths, every math library meeting the accuracy bounds (gamma: and whose log-gamma is that of the gamma integral)", "why_tests_cant": "Rounding errors accumulate over every combination of binary64 inputs and lists of any length; the doc examples compare a few values with a fixed tolerance.", "anchors": ["symbolic-math/src/final_tagless.rs: DirectEval, StatisticalExpr", "mathjit/src/final_tagless.rs: from_roots", "measures-exponential-family/src/exponential_family/final_tagless.rs: patterns, log_sum_exp, dot_product, exp_fam_log_density, iid_exp_fam_log_density", "measures-distributions/src/distributions/final_tagless.rs: patterns, DistributionEval"]}
{"id": "C75", "title": "Multivariate normal", "statement": "As written in multinormal.rs (the file is in the repository but its mod line is commented out), with a linear-algebra library that inverts and takes determinants correctly and in exact arithmetic: new succeeds exactly when the mean has the size of the square covariance and the covariance is invertible (a matrix that is not square is refused); every symmetric positive definite covariance is accepted and has a positive determinant, and the log-density is largest exactly at the mean; for a symmetric covariance of positive determinant the exponential-family log-density at every point of the right length is the logarithm of exp(-(x-mu)' S^-1 (x-mu)/2) / sqrt((2 pi)^n det S); with a diagonal covariance it is the sum of the one-dimensional normal log-densities, and standard(n) is n standard normals; from_natural of to_natural returns the same mean, covariance, precision, determinant and dimension; a point of another length panics although in_support is true. Exceptions (defects): a negative determinant is accepted and makes every log-density NaN; the covariance is not checked to be symmetric (the log-density is then not that of its quadratic form) or positive definite (covariance -I is accepted and its log-density grows without bound).", "quantifier": "every dimension, mean, covariance and point with finite entries, every linear-algebra library correct on the matrices involved", "why_tests_cant": "The dimension and the matrix entries are unbounded; the file has no tests and is not compiled.", "anchors": ["measures-distributions/src/distributions/multivariate/multinormal.rs: MultivariateNormal::new, standard, from_natural, to_natural, log_partition, sufficient_statistic, DotProduct"]}
{"id": "C76", "title": "Log-densities at extreme arguments", "statement": "In binary64, with an accurate math library whose logarithm is +inf at +inf and -inf at 0 and whose log-gamma approximates the logarithm of Euler's integral: for finite accepted parameters, the log-densities of the normal, Cauchy and exponential distributions are a finite number or minus infinity (never NaN or plus infinity) at every argument except NaN, including both infinities and the largest finite numbers; so are those of the gamma (shape up to 2^880) and chi-squared (2^-1000 to 2^880 degrees of freedom) at every argument except NaN and +inf, of the beta (parameters up to 2^879; finite inside the unit interval) and of the Student's t (2^-1000 to 2^879 degrees of freedom) at every argument except NaN. The Bernoulli with a probability in [0,1] and the categorical with non-negative finite probabilities return a finite number or minus infinity at every count or index; the binomial, geometric and negative binomial with a probability strictly between 0 and 1 return a finite number at every count of their support up to 2^64, and the Poisson, for every positive finite rate and every count up to 2^64, a finite number or minus infinity (finite for rates up to 2^900). The standard normal, evaluated through its exponential family, is a finite number or minus infinity at every finite argument. The static inline functions of the normal (standard deviation 2^-510 to 2^510) and the exponential return a finite number or minus infinity at every argument except NaN. The summed log-density of an independent sample of any length without NaN is a finite number or minus infinity for the normal, Cauchy, exponential, Bernoulli and categorical. With an exponential that is 0 at -inf, log_sum_exp of any number of terms that are finite or minus infinity is finite as soon as one term is and minus infinity otherwise (no overflow, whatever the finite terms), and a mixture with finite non-negative weights, of components whose log-densities at the point are finite or minus infinity, is finite where some positively weighted component is and minus infinity elsewhere. With an exponential that is also +inf at +inf and non-negative or +inf above 709: the normal pushed through exp (log-normal) is finite or minus infinity at every positive finite argument and minus infinity at +inf; any measure that is finite or minus infinity off NaN stays so under a linear map with finite non-zero slope and finite intercept, at every argument but NaN; the exponential pushed through ln is finite or minus infinity at every finite argument and at -inf; products of measures whose log-densities there are minus infinity or at most 2^13 are finite or minus infinity, and a weighted measure with a log-weight of at most 2^13 in size is finite exactly where its base is and minus infinity where its base is. At NaN the normal, Cauchy and Student's t return NaN; the exponential, gamma, chi-squared and beta return minus infinity. Exceptions (defects): at +inf the gamma log-density is NaN for every shape from 1 on and the chi-squared one from 2 degrees of freedom on; intermediate overflow gives minus infinity where the exact log-density is above -1300: a normal two standard deviations from its mean, the standard Cauchy and the Student's t with one degree of freedom at 2^600; through the exponential family the standard normal is NaN at both infinities and the normal (standard deviation 2^-400 to 2^400) at the infinity on the side of its mean, every normal with a standard deviation up to 2^-540 is NaN everywhere, and with one from 2^512 on minus infinity at moderate means and arguments, where the exact value is above -1300, and so is its static inline function; a mixture whose components are all NaN at a point (two gammas at +inf, say) is minus infinity there; the log-normal is NaN at 0 and the exponential pushed through ln is NaN at +inf. In binary32, with an accurate single-precision library with the same edges, the same holds for the normal, Cauchy and exponential at every argument except NaN, for their samples and those of the Bernoulli and categorical, for log_sum_exp and for mixtures, for the gamma (shape up to 2^70), chi-squared (2^-100 to 2^70 degrees of freedom; both again NaN at +inf from shape 1 or 2 degrees of freedom on), beta (parameters up to 2^69), binomial, geometric, negative binomial and Poisson (finite for rates up to 2^99); the Student's t with 2^-100 to 2^69 degrees of freedom, computed in binary64 and converted, is finite at every finite argument and minus infinity at both infinities; the standard Cauchy overflows to minus infinity at 2^70, where the exact log-density is above -110.", "quantifier": "every finite parameter in the stated ranges, every binary64 (or binary32) argument or 64-bit count, every accurate math library", "why_tests_cant": "There are 2^64 arguments for each parameter value; the overflow of intermediate results depends on all of them.", "anchors": ["measures-distributions/src/distributions/continuous/*.rs: HasLogDensity::log_density", "measures-distributions/src/distributions/discrete/*.rs: HasLogDensity::log_density", "measures-exponential-family/src/exponential_family/traits.rs: ExponentialFamily::exp_fam_log_density", "measures-exponential-family/src/exponential_family/iid.rs: iid_log_density_fallback", "measures-combinators/src/measures/combinators/superposition.rs: log_sum_exp, MixtureMeasure::log_density_wrt_root", "measures-combinators/src/measures/combinators/pushforward.rs", "measures-combinators/src/measures/combinators/product.rs", "measures-combinators/src/measures/derived/weighted.rs", "measures-exponential-family/src/exponential_family/jit.rs: StaticInlineJITCompiler"]}
{"id": "C77", "title": "Computed log-densities are monotone", "statement": "In binary64 with an accurate math library, rounding and overflow never invert the order of likelihoods: for finite parameters and arguments, the normal log-density at a point is at least its value at any point as far or further from the mean, so the mean is a maximum and points at equal exact distance get equal values; the exponential log-density never increases on the non-negative numbers; the same holds for the static inline functions of the normal (standard deviation 2^-510 to 2^510) and the exponential. With a logarithm that is also +inf at +inf, zero at 1 and never decreasing, the Cauchy log-density never increases with the distance from its location, the Student's t log-density (2^-1000 to 2^879 degrees of freedom, log-gamma approximating the logarithm of Euler's integral) never increases with the size of its argument, and the geometric log-density (probability strictly between 0 and 1, counts from 1 to 2^64) never increases with the count. With such a logarithm and log-gamma the gamma log-density with a shape of at most 1 and the chi-squared log-density with 2^-1000 to 2 degrees of freedom never increase on the positive numbers. With a logarithm that is also -inf at zero, the likelier outcome of a Bernoulli or categorical variable never gets the smaller log-density. The order carries over to samples of any length: if each point of one sample is as close to the mean as its counterpart in another (or, for the exponential, non-negative and no larger), the summed log-density of the first is at least that of the second, for the normal and exponential and, with a non-decreasing logarithm, the Cauchy. With a logarithm that is also -inf at zero, a Bernoulli or categorical sample that is point by point at least as likely as another never gets the smaller summed log-density. In binary32, with an accurate single-precision library, the normal, exponential and (with a non-decreasing logarithm) Cauchy log-densities and their sums over samples, (with such a logarithm) the Bernoulli and categorical log-densities and their sums over samples, and (with such a logarithm and, where used, log-gamma) the geometric, gamma, chi-squared (2^-100 to 2 degrees of freedom) and Student's t (2^-100 to 2^69 degrees of freedom) log-densities, keep the order in the same way. Exception (defect): through the exponential family the squares cancel and the order inverts; for every accurate library the normal with mean 205008146833 and standard deviation 1 has log-density 0 at its mean and 4194304 at 174 standard deviations from it.", "quantifier": "every finite accepted parameter in the stated ranges, every pair of finite binary64 (or binary32) arguments, of counts or of samples, every accurate math library", "why_tests_cant": "There are 2^128 pairs of arguments for each parameter value, and an inversion could hide at any rounding or overflow boundary.", "anchors": ["measures-distributions/src/distributions/continuous/normal.rs: HasLogDensity::log_density", "measures-distributions/src/distributions/continuous/cauchy.rs", "measures-distributions/src/distributions/continuous/student_t.rs", "measures-distributions/src/distributions/continuous/exponential.rs", "measures-distributions/src/distributions/discrete/geometric.rs", "measures-exponential-family/src/exponential_family/jit.rs: StaticInlineJITCompiler", "measures-exponential-family/src/exponential_family/traits.rs: ExponentialFamily::exp_fam_log_density", "measures-distributions/src/distributions/continuous/gamma.rs", "measures-exponential-family/src/exponential_family/iid.rs: iid_log_density_fallback", "measures-distributions/src/distributions/continuous/chi_squared.rs", "measures-distributions/src/distributions/discrete/bernoulli.rs", "measures-distributions/src/distributions/discrete/categorical.rs"]}
