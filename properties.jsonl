{"id": "C01", "title": "Choice probabilities are a proper (nested) logit distribution", "statement": "In every market, for every agent, the choice probabilities of the inside goods are strictly positive, sum to strictly less than one, and equal the logit formula exp(V_j)/(1+sum_k exp(V_k)) (or, with nesting, the within-group share times the group share with inclusive value (1-rho_h) log sum exp(V_k/(1-rho_h))), where V = (delta+mu)/epsilon_scale.", "quantifier": "all numbers of products, agents and nesting groups, all mean utilities, agent-specific utilities, nesting parameters below one and positive epsilon scales", "why_tests_cant": "the claim is a universally quantified algebraic identity over real-valued vectors of arbitrary length; tests sample a few vectors", "anchors": ["pyblp/markets/market.py: Market.compute_probabilities (360-456)"]}
{"id": "C02", "title": "Overflow-safe rescaling never changes choice probabilities", "statement": "Computing choice probabilities in the overflow-safe way (subtracting an agent-specific constant from utilities and rescaling the outside option and the nests) returns exactly the same probabilities and the same conditional probabilities as the direct computation, with or without nesting, including when nesting parameters differ by group.", "quantifier": "all utilities, all rescaling constants that the code derives from them, all nesting structures with nesting parameters below one", "why_tests_cant": "equality must hold for every utility vector, including the extreme ones for which the safe variant exists; a test can only compare a few in floating point", "anchors": ["pyblp/markets/market.py: Market.compute_probabilities (378-438)"]}
{"id": "C03", "title": "Closed-form logit and nested logit mean utilities reproduce the observed shares", "statement": "The mean utility computed in closed form for the logit and the nested logit model (for any nesting parameters below one, one per group, and any positive epsilon scale) is the one at which predicted market shares equal observed shares exactly, product by product.", "quantifier": "all markets and all strictly positive observed shares with a strictly positive outside share; all nesting group assignments; all rho<1; all epsilon_scale>0", "why_tests_cant": "an inversion identity over all share vectors and all group structures; only finitely many can be tested", "anchors": ["pyblp/economies/economy.py: Economy._compute_logit_delta (410-435)", "pyblp/markets/market.py: Market.compute_delta (484-502)", "pyblp/markets/market.py: Market.compute_probabilities"]}
{"id": "C04", "title": "Fixed points of the demand contraction are exactly the share-matching mean utilities", "statement": "A mean utility vector is left unchanged by one application of the contraction used to invert market shares (linear or safe_linear, damped by 1-rho when there is nesting, with share clipping inactive) if and only if predicted shares equal observed shares for every product in the market.", "quantifier": "all mean utilities, all agents and weights, all observed shares, all nesting parameters below one", "why_tests_cant": "an equivalence over all real vectors; the if direction can be sampled but the only-if direction cannot", "anchors": ["pyblp/markets/market.py: Market.compute_delta (520-607)"]}
{"id": "C05", "title": "The mean utility that matches observed shares is unique", "statement": "With random coefficients but no nesting, two mean utility vectors that yield the same predicted market shares in a market are equal; hence the estimated delta cannot depend on the starting values, the iteration routine or the schedule once shares are matched.", "quantifier": "all finite agent populations with nonnegative weights of which at least one is positive, all agent-specific utilities", "why_tests_cant": "uniqueness quantifies over pairs of real vectors", "anchors": ["pyblp/markets/market.py: Market.compute_delta (458-667)", "pyblp/markets/market.py: Market.compute_probabilities"]}
{"id": "C06", "title": "The demand contraction never increases sup-norm distances", "statement": "Applying the contraction used to invert market shares to two mean utility vectors brings them no further apart in the sup norm, and it is monotone in every component, so fixed point iteration from any starting value cannot diverge from the solution.", "quantifier": "all pairs of mean utility vectors, all agent populations, all observed shares", "why_tests_cant": "a Lipschitz bound over all pairs of real vectors", "anchors": ["pyblp/markets/market.py: Market.compute_delta (543-575)"]}
{"id": "C07", "title": "Every accepted fixed point type is honoured", "statement": "The fixed point formulation named by fp_type is the one used to compute delta: 'linear' and 'safe_linear' iterate on delta, 'nonlinear' and 'safe_nonlinear' iterate on exp(delta).", "quantifier": "all four fp_type values that Problem.solve accepts and all markets", "why_tests_cant": "an ordinary test checks that delta is right, which it is under either formulation; that a documented option is dead code is visible only from the control flow", "anchors": ["pyblp/markets/market.py: Market.compute_delta (543, 610-661)", "pyblp/economies/economy.py: Economy._validate_fp_type (354-359)", "pyblp/economies/problem.py: Problem.solve docstring"]}
{"id": "C08", "title": "Removing products from the choice set renormalises probabilities", "statement": "Choice probabilities computed with a product eliminated from the choice set are exactly those of the market in which that product does not exist (zero for the product itself), and every remaining product and the outside option weakly gain.", "quantifier": "all markets, utilities, nesting structures, and eliminated products", "why_tests_cant": "identity over all utilities and all subsets; cannot be enumerated", "anchors": ["pyblp/markets/market.py: Market.compute_probabilities (eliminate_product, eliminate_outside)", "pyblp/results/economy_results.py: compute_shares/long-run diversion"]}
{"id": "C09", "title": "Fixed point routines respect their evaluation budget and report convergence truthfully", "statement": "The simple iteration routine never evaluates the contraction more than max_evaluations times, the evaluation count it reports is the number of evaluations made, and if it reports convergence then the returned values are finite, are an actual evaluation of the contraction, and the norm of the last change is strictly below the configured tolerance; exhausting the budget is reported as non-convergence.", "quantifier": "all contractions (arbitrary functions, also ones producing non-finite values), norms, tolerances, budgets and starting values", "why_tests_cant": "quantifies over all functions being iterated and all histories of iterates", "anchors": ["pyblp/configurations/iteration.py: Iteration._iterate (258-294), simple_iterator (369-400), termination_check (491-498)"]}
{"id": "C10", "title": "Fixed point routines never return non-finite values as a result of iteration", "statement": "If evaluating the contraction produces a non-finite value, the simple and SQUAREM routines stop at once, report non-convergence and return the last finite iterate.", "quantifier": "all contractions, starting values and budgets", "why_tests_cant": "quantifies over all functions and over the position of the first non-finite evaluation", "anchors": ["pyblp/configurations/iteration.py: simple_iterator, squarem_iterator (369-483)"]}
{"id": "C11", "title": "SQUAREM converges only by its tolerance and keeps its step length within bounds", "statement": "The SQUAREM routine respects the evaluation budget, keeps every step length it uses inside the current bounds, only ever widens those bounds by the configured factor, and reports convergence only when a change produced by an actual evaluation of the contraction is strictly below the tolerance within budget.", "quantifier": "all contractions, tolerances, budgets, schemes and step length configurations", "why_tests_cant": "quantifies over all functions being iterated and all histories", "anchors": ["pyblp/configurations/iteration.py: squarem_iterator (403-483)"]}
{"id": "C12", "title": "Recovered marginal costs rationalise observed prices", "statement": "Marginal costs returned by compute_costs satisfy the Bertrand first-order conditions at observed prices for the given ownership, and plugging these costs back into compute_approximate_prices with the same ownership returns the observed prices.", "quantifier": "all markets, ownership matrices and demand Jacobians for which the intra-firm Jacobian is invertible", "why_tests_cant": "linear-algebraic identity for all matrices", "anchors": ["pyblp/markets/market.py: Market.compute_eta (694-734)", "pyblp/markets/economy_results_market.py: safely_compute_costs, safely_compute_approximate_prices"]}
{"id": "C13", "title": "The markup contraction for equilibrium prices agrees with the first-order conditions", "statement": "A price vector is a fixed point of the markup contraction used by compute_prices and replace_endogenous if and only if it satisfies the Bertrand first-order conditions that define markups and costs, for every ownership matrix that product_data may contain.", "quantifier": "all ownership matrices, capital lambda/gamma matrices with nonzero lambda, prices and costs", "why_tests_cant": "equivalence over all real matrices", "anchors": ["pyblp/markets/market.py: Market.compute_equilibrium_prices (736-892), compute_zeta, compute_eta"]}
{"id": "C14", "title": "The reported share Jacobian is the exact derivative of predicted shares", "statement": "The matrix of derivatives of market shares with respect to prices (and hence elasticities and diversion ratios) equals the true partial derivatives of predicted shares, for the plain random coefficients logit.", "quantifier": "all markets, agents, weights, utilities and utility derivatives", "why_tests_cant": "analytic derivative identity over all real inputs; finite differences only approximate it at sampled points", "anchors": ["pyblp/markets/market.py: compute_capital_lamda_gamma (669-692), compute_shares_by_variable_jacobian (1184-...)"]}
{"id": "C15", "title": "Failure to converge to equilibrium prices is reported", "statement": "When the fixed point routine used by compute_prices does not converge in a market, an EquilibriumPricesConvergenceError is reported to the user; when it converges none is.", "quantifier": "all markets and all outcomes of the iteration routine", "why_tests_cant": "tests exercise converging cases; the claim is about every non-converging history", "anchors": ["pyblp/markets/economy_results_market.py: safely_compute_prices (330-352), safely_solve_equilibrium_realization (17-60)", "pyblp/utilities/basics.py: SolverStats (468-479)"]}
{"id": "C16", "title": "Diversion ratios are a distribution over alternatives and match their definition", "statement": "Each row of the diversion ratio matrix (outside diversion on the diagonal) sums to one, and entry (j,k) equals -(ds_k/dx_j)/(ds_j/dx_j) as documented.", "quantifier": "all markets, all share Jacobians with nonzero own derivatives", "why_tests_cant": "identity for all matrices, in particular asymmetric Jacobians that standard test problems never produce", "anchors": ["pyblp/markets/economy_results_market.py: safely_compute_diversion_ratios (160-192)", "pyblp/results/economy_results.py: compute_diversion_ratios docstring (270-290)"]}
{"id": "C17", "title": "Consumer surplus is the expected maximum utility of the demand model in use", "statement": "Consumer surplus equals the weighted log-sum (inclusive value) divided by the marginal utility of income; its overflow-safe computation is exact; eliminating products weakly lowers it; and its derivative with respect to a product's mean utility is that product's choice probability over the marginal utility of income, under every epsilon scale.", "quantifier": "all markets, agents, utilities, nesting structures and epsilon scales", "why_tests_cant": "analytic identities over all real inputs", "anchors": ["pyblp/markets/economy_results_market.py: safely_compute_consumer_surplus (399-461)"]}
{"id": "C18", "title": "Herfindahl-Hirschman index bounds and merger monotonicity", "statement": "HHI equals 10,000 times the sum over firms of squared firm shares, as documented, lies between 0 and 10,000, does not depend on the order of products, and merging two firms raises it by exactly 20,000 times the product of their shares.", "quantifier": "all markets, nonnegative shares and firm assignments", "why_tests_cant": "identity over all partitions of products into firms", "anchors": ["pyblp/markets/economy_results_market.py: safely_compute_hhi (356-364)"]}
{"id": "C19", "title": "Stacked post-estimation outputs line up with the product data", "statement": "A product-level output computed for all markets (e.g. compute_costs) has in row n the value belonging to product n of product_data, whatever the order in which rows of different markets are interleaved; a market-level output has one row per sorted market ID.", "quantifier": "all product data, all assignments of rows to markets, all per-market results", "why_tests_cant": "quantifies over all interleavings of markets, including degenerate sizes (single-product markets)", "anchors": ["pyblp/results/economy_results.py: EconomyResults._combine_arrays (1187-1276)", "pyblp/results/bootstrapped_results.py: _combine_arrays"]}
{"id": "C20", "title": "Parallel processing never changes market-by-market results", "statement": "Whatever order worker processes finish in, and whether or not a pool is used at all, the arrays, dictionaries and set of reported errors that market-by-market computations assemble are the same as those of serial processing.", "quantifier": "all sets of markets, all per-market results, all completion orders (permutations)", "why_tests_cant": "schedules cannot be enumerated or forced in a unit test", "anchors": ["pyblp/utilities/basics.py: generate_items (172-187)", "pyblp/economies/problem.py: _compute_progress (1117-1161)", "pyblp/results/economy_results.py: _combine_arrays"]}
{"id": "C21", "title": "Importance sampling with a seed is reproducible under parallel processing", "statement": "For a fixed seed the sampled agents and weights do not depend on the order in which worker processes finish.", "quantifier": "all markets, candidate agents, random streams and completion orders", "why_tests_cant": "requires quantifying over schedules", "anchors": ["pyblp/results/problem_results.py: _compute_importance_weights (1783-1829)"]}
{"id": "C22", "title": "Group statistics are per-ID sums, means and counts whatever the row order", "statement": "Summing, averaging and expanding by group IDs (used for clustered covariances, market totals and nesting groups) gives for each distinct ID in sorted order exactly the sum, mean and count of the rows carrying that ID, and expansion puts each group's statistic on precisely the rows with that ID; market row indices partition the rows and list them in increasing order.", "quantifier": "all ID vectors and matrices of values", "why_tests_cant": "quantifies over all ID vectors and orders", "anchors": ["pyblp/utilities/basics.py: get_indices (408-418), Groups (490-532)"]}
{"id": "C23", "title": "Parameter vectors and parameter matrices round-trip", "statement": "Compressing parameter matrices into theta and expanding theta back yields the same matrices, expanding and compressing any theta yields theta, fixed parameters keep exactly their fixed values, and no two elements of theta refer to the same matrix entry.", "quantifier": "all sigma, pi, rho, phi, beta and gamma matrices and bounds that pass validation, all theta", "why_tests_cant": "round-trip over all parameter configurations", "anchors": ["pyblp/parameters.py: Parameters.__init__, compress (623-640), expand (655-700)"]}
{"id": "C24", "title": "A parameter is fixed exactly when its bounds coincide, and default bounds are neutral", "statement": "A parameter initialised at zero (or concentrated out) or with equal lower and upper bounds is never optimised over; every other entry is in theta exactly once; starting values outside bounds are rejected, so accepted starting values satisfy lb <= theta <= ub; NaN bounds are replaced by infinite ones.", "quantifier": "all matrices and bounds", "why_tests_cant": "case analysis over all combinations of bounds and values", "anchors": ["pyblp/parameters.py: initialize_matrix (316-340), initialize_bounds (343-380), Parameter"]}
{"id": "C25", "title": "Numerical failures never leak non-finite values into the GMM objective", "statement": "After an objective evaluation every element of delta, transformed costs, micro moments and their Jacobians that came out non-finite has been replaced by the value from the previous evaluation, elements that were finite are untouched, and exactly one reversion error per affected quantity is recorded if and only if some element was replaced.", "quantifier": "all vectors with arbitrary patterns of non-finite elements, all histories", "why_tests_cant": "quantifies over all failure patterns and histories", "anchors": ["pyblp/economies/problem.py: _compute_progress (1287-1318, 1529-1540)"]}
{"id": "C26", "title": "Error behaviour 'revert' and 'punish' transform the objective as documented and leave earlier evaluations alone", "statement": "If an evaluation produced errors, 'punish' sets the objective to the punishment and the gradient to zero, 'revert' multiplies the (reverted) objective by the punishment, and objective values already recorded for earlier evaluations never change afterwards.", "quantifier": "all sequences of evaluations, error patterns and punishments", "why_tests_cant": "aliasing bugs show only for particular sequences of failing evaluations", "anchors": ["pyblp/economies/problem.py: _compute_progress (1525-1562)"]}
{"id": "C27", "title": "With delta_behavior 'first' the objective is a function of theta", "statement": "With delta_behavior='first' (the default) and no errors, the delta used to start each market's fixed point is always the initial one, so objective values do not depend on which parameter vectors were evaluated before; with 'last' the starting value is the delta of the last evaluation.", "quantifier": "all sequences of objective evaluations without errors", "why_tests_cant": "history independence quantifies over all evaluation sequences", "anchors": ["pyblp/economies/problem.py: solve (compute_step loop), _compute_progress (1559-1562)"]}
{"id": "C28", "title": "The GMM gradient is the derivative of the GMM objective", "statement": "With a symmetric weighting matrix, the reported gradient 2 G'Wg (scaled by N when scale_objective is set) is the exact derivative of the objective g'Wg along every direction when G is the Jacobian of the moments g.", "quantifier": "all moment vectors, Jacobians, symmetric weighting matrices and dimensions", "why_tests_cant": "identity over all matrices", "anchors": ["pyblp/economies/problem.py: _compute_progress (1515-1545)"]}
{"id": "C29", "title": "Concentrated-out linear parameters solve the GMM first-order conditions", "statement": "Given a nonsingular X'ZWZ'X, the linear parameters returned for any y satisfy X'ZWZ'(y - X b) = 0 and are the unique solution; residuals are exactly y - X b split by equation; residual Jacobians are the exact derivative of residuals with respect to changes in y; applying the estimator to its own residuals returns zero.", "quantifier": "all data matrices, instruments, weighting matrices and stacked equations", "why_tests_cant": "matrix identity for all dimensions and entries", "anchors": ["pyblp/utilities/statistics.py: IV (13-67)"]}
{"id": "C30", "title": "GMM covariance matrices are symmetric and collapse to each other in the documented special cases", "statement": "Weighting matrices, moment covariances and parameter covariances are symmetric; moment covariances are positive semidefinite; clustering with one observation per cluster equals the robust covariances; with the optimal weighting matrix the robust parameter covariances equal the unadjusted ones.", "quantifier": "all error vectors, instruments, cluster assignments and weighting matrices", "why_tests_cant": "matrix identities for all dimensions", "anchors": ["pyblp/utilities/statistics.py: compute_gmm_weights, compute_gmm_moment_covariances, compute_gmm_parameter_covariances (70-144)"]}
{"id": "C31", "title": "Use of an approximate inverse is always reported", "statement": "Whenever a matrix inverse was replaced by a pseudo-inverse or a diagonal inverse, the user is told which replacement was used.", "quantifier": "all matrices and all outcomes of the three inversion attempts", "why_tests_cant": "tests rarely make LAPACK fail; the claim ranges over all failure patterns", "anchors": ["pyblp/utilities/algebra.py: approximately_invert (147-177), approximately_solve (133-144)", "pyblp/options.py: pseudo_inverses docstring (60-66)"]}
{"id": "C32", "title": "Half-vectorisation identities and the delta method for sigma squared", "statement": "vech, vec, duplication, elimination and commutation operations satisfy L vec(A)=vech(A), D vech(S)=vec(S) for symmetric S, K vec(A)=vec(A'), and converting a half-vector to a lower-triangular or full matrix and back is the identity; the Jacobian used for standard errors of sigma sigma' is the exact derivative of vech(sigma sigma').", "quantifier": "all dimensions and all matrices", "why_tests_cant": "index identities for all dimensions", "anchors": ["pyblp/utilities/algebra.py: vech, vec, duplication_matrix, elimination_matrix, commutation_matrix (180-245)", "pyblp/utilities/statistics.py: compute_sigma_squared_vector_covariances (167-180)"]}
{"id": "C33", "title": "build_id_data gives a balanced panel", "statement": "build_id_data(T, J, F) yields T blocks of J rows with market IDs 0..T-1; in each market every one of the F firms produces at least one product, firm IDs are nondecreasing, product counts differ by at most one, and the firms with smaller IDs produce the excess products.", "quantifier": "all T, J, F with 1 <= F <= J", "why_tests_cant": "arithmetic property of all triples of integers", "anchors": ["pyblp/construction.py: build_id_data (13-61)"]}
{"id": "C34", "title": "Ownership matrices built from IDs and kappa are what the specification says", "statement": "build_ownership puts kappa(f_j, f_k) in position (j,k) within each market, pads the remaining columns with NaN, yields 0/1 matrices that are symmetric, reflexive and block-transitive under the default, identity matrices for 'single' and all-ones for 'monopoly'.", "quantifier": "all market and firm ID vectors and kappa specifications", "why_tests_cant": "quantifies over all panels and functions", "anchors": ["pyblp/construction.py: build_ownership (64-171)"]}
{"id": "C35", "title": "BLP instruments are sums over other own-firm and rival products", "statement": "For every product, the first half of the columns of build_blp_instruments is the sum of the characteristic over the firm's other products in the market and the second half the sum over rivals' products; own value plus both equals the market total; reordering rows permutes the instruments the same way.", "quantifier": "all panels and characteristics", "why_tests_cant": "identity over all panels", "anchors": ["pyblp/construction.py: build_blp_instruments (174-258)"]}
{"id": "C36", "title": "Differentiation instruments follow their definition", "statement": "build_differentiation_instruments returns, for own-firm others and rivals, sums of the documented functions of d_jk = x_k - x_j (quadratic or local, with or without interactions).", "quantifier": "all panels, characteristics, versions and interaction flags", "why_tests_cant": "sign and symmetry errors vanish in symmetric test markets", "anchors": ["pyblp/construction.py: build_differentiation_instruments (261-447)"]}
{"id": "C37", "title": "data_to_dict loses nothing", "statement": "Splitting the matrices of structured data into dictionary columns and reading a field back by name returns the original matrix, for every combination of field names.", "quantifier": "all field names and matrices", "why_tests_cant": "name collisions need particular field names", "anchors": ["pyblp/construction.py: data_to_dict (550-609)", "pyblp/utilities/basics.py: extract_matrix (224-253)"]}
{"id": "C38", "title": "Integration weights and market blocks", "statement": "Nodes and weights built for many markets are one block per market ID, each with the configured size and weights summing to one; Monte Carlo and Halton weights are uniform; Halton blocks for different markets are consecutive and disjoint segments of one sequence.", "quantifier": "all numbers of markets, dimensions and sizes", "why_tests_cant": "quantifies over all counts", "anchors": ["pyblp/configurations/integration.py: Integration._build_many, _build, halton (206-225)"]}
{"id": "C39", "title": "Halton points are the radical inverse sequence", "statement": "In each dimension the unscrambled Halton points are the radical inverse of consecutive integers in the base of that dimension: they lie in [0,1), are pairwise distinct, and any b^k consecutive points starting at a multiple of b^k hit each interval [i/b^k,(i+1)/b^k) exactly once.", "quantifier": "all bases at least two, all start indices and lengths", "why_tests_cant": "equidistribution for every k and start", "anchors": ["pyblp/configurations/integration.py: halton (206-225)"]}
{"id": "C40", "title": "Latin hypercube samples are stratified", "statement": "Modified latin hypercube samples of size n have in every dimension exactly one point in each of the n equal subintervals of the unit interval.", "quantifier": "all sizes, dimensions, shifts and permutations drawn by the generator", "why_tests_cant": "quantifies over all random outcomes", "anchors": ["pyblp/configurations/integration.py: lhs (246-257)"]}
{"id": "C41", "title": "Product rules integrate products exactly and sparse grid index sets are complete", "statement": "The product rule's weights are products of univariate weights over the full Cartesian grid, so it factorises on products of univariate functions and its weights sum to one when the univariate weights do; the index sequences used by sparse grids enumerate every sequence of positive integers of the given length and sum exactly once.", "quantifier": "all dimensions and sizes", "why_tests_cant": "combinatorial identity for all dimensions", "anchors": ["pyblp/configurations/integration.py: product_rule (260-268), sparse_grid (271-324), same_size_sequences (327-349)"]}
{"id": "C42", "title": "Optimisation wrappers never hand out stale objective values or gradients", "statement": "Objective values and gradients that the wrapped routine obtains for a parameter vector are always those of that same vector, however the routine interleaves its requests, and consecutive requests at one vector cause one evaluation.", "quantifier": "all sequences of objective and gradient requests", "why_tests_cant": "depends on the request history of third-party optimisers", "anchors": ["pyblp/configurations/optimization.py: scipy_optimizer, knitro_optimizer caches"]}
{"id": "C43", "title": "Lag indices are validated", "statement": "product_data with a lag index that is not a valid row number (or the designated missing value) is rejected.", "quantifier": "all lag index vectors", "why_tests_cant": "quantifies over all out-of-range values", "anchors": ["pyblp/primitives.py: Products.__new__ (190-210)"]}
{"id": "C44", "title": "Agent data stay aligned when nodes are replaced by an integration configuration", "statement": "When agent_data is combined with an integration configuration, every row of the resulting agents has the demographics, agent ID and availability of one and the same row of agent_data of the same market.", "quantifier": "all agent data and integration sizes", "why_tests_cant": "misalignment shows only for particular orders of rows", "anchors": ["pyblp/primitives.py: Agents.__new__ (372-391)"]}
{"id": "C45", "title": "Micro scores of an observation depend only on that observation and come back in data order", "statement": "Each row of compute_micro_scores is the score of the observation in the corresponding row of micro_data, and does not depend on which other observations are passed along with it.", "quantifier": "all micro data sets and subsets, all ID orders", "why_tests_cant": "quantifies over all subsets and orders of observations", "anchors": ["pyblp/results/economy_results.py: compute_micro_scores (1373-1535)", "pyblp/primitives.py: MicroAgents.__new__ (495-505)"]}
{"id": "C46", "title": "Micro moments do not depend on how computation is chunked", "statement": "options.micro_computation_chunks only affects memory usage: micro moment numerators, denominators, values and their Jacobians are the same for every number of chunks.", "quantifier": "all numbers of chunks, agents, weights and datasets", "why_tests_cant": "quantifies over all chunk sizes, including those that do not divide the number of agents", "anchors": ["pyblp/markets/market.py: generate_micro_chunks (1926-1957), compute_micro_dataset_contributions (1567-1924)", "pyblp/options.py (129-131)"]}
{"id": "C47", "title": "Second choice probabilities are a joint distribution", "statement": "Joint first and second choice probabilities derived by elimination are nonnegative, sum over second choices (including the outside option) to the first choice probability, and are zero on the diagonal.", "quantifier": "all agents, utilities and products, without nesting", "why_tests_cant": "identity over all utilities", "anchors": ["pyblp/markets/market.py: compute_micro_dataset_contributions (1700-1890)"]}
{"id": "C48", "title": "The parallel context always restores serial processing", "statement": "After the parallel context manager exits, normally or by an exception, no pool is in use; with one process no pool is ever created; invalid process counts are rejected before any state changes.", "quantifier": "all process counts, bodies and exception points, nested contexts", "why_tests_cant": "quantifies over exception points", "anchors": ["pyblp/utilities/basics.py: parallel (48-169)"]}
{"id": "C49", "title": "Optimal instrument error draws have the estimated distribution", "statement": "With method='normal' the error terms drawn to average Jacobians have the estimated variance, with or without a supply side.", "quantifier": "all residual vectors and all streams of standard normal draws", "why_tests_cant": "statistical tests on one data set with variance near one would pass", "anchors": ["pyblp/results/problem_results.py: compute_optimal_instruments (1444-1452)"]}
{"id": "C50", "title": "Cumulative statistics cover all GMM steps", "statement": "Cumulative times, iteration and evaluation counts of the final results are the sums over all GMM steps, cumulative fixed point statistics concatenate the steps in order, and cumulative_converged holds exactly when every step's optimisation converged.", "quantifier": "all sequences of GMM steps that Problem.solve can perform", "why_tests_cant": "quantifies over step histories", "anchors": ["pyblp/results/problem_results.py: ProblemResults.__init__ (452-497)", "pyblp/economies/problem.py: solve (805-986)"]}
{"id": "C51", "title": "Importance sampling draws and weights", "statement": "Serial importance sampling keeps exactly the requested number of distinct agents in every market (or raises), gives each agent a strictly positive weight equal to inside share / (inside probability * draws), and the reported effective number of draws lies between one and the number of draws.", "quantifier": "all markets, probabilities, random streams and accept-reject constants", "why_tests_cant": "quantifies over random outcomes", "anchors": ["pyblp/results/problem_results.py: _compute_importance_weights (1783-1829)", "pyblp/results/importance_sampling_results.py (80-91)"]}
{"id": "C52", "title": "Simulated structural errors follow the configured autocorrelation", "statement": "When lag indices and phi are given, every product with a lag has simulated errors equal to phi times the errors of its lag plus an innovation, and simulation terminates.", "quantifier": "all lag structures accepted by validation", "why_tests_cant": "quantifies over all lag graphs", "anchors": ["pyblp/economies/simulation.py: Simulation.__init__ (585-610)"]}
{"id": "C53", "title": "replace_exogenous makes the data consistent with the true parameters", "statement": "After replacing an exogenous characteristic, X1 beta + xi equals the delta implied by shares (and X3 gamma + omega the implied costs) in every row, and no other characteristic changes.", "quantifier": "all data, parameters with nonzero coefficient on the replaced variable", "why_tests_cant": "identity over all data", "anchors": ["pyblp/economies/simulation.py: replace_exogenous (990-1010)"]}
{"id": "C54", "title": "Specification test statistics do not depend on objective scaling", "statement": "Hansen's J equals N g'Wg and the distance statistic the difference of the two J statistics, whether or not either objective was scaled by N; the Wald statistic is invariant to invertible linear recombination of the restrictions.", "quantifier": "all moments, weighting matrices and sample sizes", "why_tests_cant": "algebraic identity", "anchors": ["pyblp/results/problem_results.py: run_hansen_test, run_distance_test, run_lm_test, run_wald_test (946-1117)"]}
{"id": "C55", "title": "Finite differences are exact on quadratics", "statement": "Central finite differences used for optimisation without analytic derivatives are exact for every quadratic function, and second differences are exact for every quadratic (and its mixed terms), for any step size.", "quantifier": "all quadratic functions, points and nonzero step sizes", "why_tests_cant": "identity over all coefficients", "anchors": ["pyblp/utilities/basics.py: compute_finite_differences (421-435), compute_second_finite_differences (438-465)"]}
{"id": "C56", "title": "Matrix fields are read unambiguously", "statement": "extract_matrix returns the field with the exact name if present, otherwise the horizontal concatenation of name0, name1, ... up to the first missing index; updating structured data changes exactly the named fields.", "quantifier": "all mappings and field names", "why_tests_cant": "quantifies over all mappings", "anchors": ["pyblp/utilities/basics.py: structure_matrices, update_matrices, extract_matrix (190-253)"]}
{"id": "C57", "title": "A zero projected gradient is exactly first-order optimality under bounds", "statement": "The reported projected gradient norm is zero if and only if the parameter vector satisfies the first-order (KKT) conditions of minimising the objective subject to the bounds.", "quantifier": "all gradients, bounds and parameter vectors within the bounds", "why_tests_cant": "case analysis over all bound patterns", "anchors": ["pyblp/economies/problem.py: Progress (2350-2366)"]}
{"id": "C58", "title": "Long-run diversion ratios are a distribution of the lost customers", "statement": "In every row of the long-run diversion matrix the off-diagonal entries (to other inside goods) and the diagonal entry (to the outside option) are nonnegative and sum to one.", "quantifier": "all markets, agents, and nesting parameters in [0,1)", "why_tests_cant": "quantifies over all demand systems", "anchors": ["pyblp/markets/economy_results_market.py: safely_compute_long_run_diversion_ratios (184-193)"]}
{"id": "C59", "title": "Elasticities are exactly the log derivatives of shares", "statement": "The (j,k) elasticity with respect to a variable (or the mean utility) is the derivative of product j's share with respect to the k-th value of the variable, times the value, over the share.", "quantifier": "all markets, formulations, nesting structures and epsilon scales", "why_tests_cant": "the derivative is a limit", "anchors": ["pyblp/markets/economy_results_market.py: safely_compute_elasticities (137-149)"]}
{"id": "C60", "title": "Pass-through is the derivative of Bertrand prices with respect to costs", "statement": "The reported pass-through matrix solves the linear system obtained by differentiating the Bertrand first-order conditions with respect to marginal costs.", "quantifier": "all markets, agents, prices, costs and ownership matrices", "why_tests_cant": "implicit derivative over all demand systems", "anchors": ["pyblp/markets/economy_results_market.py: safely_compute_passthrough (253-302)", "pyblp/markets/market.py: compute_capital_lamda_gamma_tensors (1203-1269)"]}
{"id": "C61", "title": "Share and profit Hessians are the exact second derivatives", "statement": "Every entry of the demand Hessian is the derivative of the corresponding entry of the demand Jacobian with respect to the variable of the third product, with or without nesting.", "quantifier": "all markets, agents, twice differentiable formulations and product triples", "why_tests_cant": "the second derivative is a limit", "anchors": ["pyblp/markets/economy_results_market.py: safely_compute_demand_hessians (159-167)", "pyblp/markets/market.py: compute_capital_lamda_gamma_tensors (1203-1269), compute_shares_by_variable_hessian (1271-1289)"]}
{"id": "C62", "title": "Derivatives with respect to mean utilities are exact", "statement": "The share-by-xi Jacobian (evaluated at matched shares), the probability-by-xi tensors and the Jacobian handed to root-finding routines for the demand contraction are the exact derivatives.", "quantifier": "all markets, agents, mean utilities, nesting structures and epsilon scales", "why_tests_cant": "the derivative is a limit", "anchors": ["pyblp/markets/market.py: compute_shares_by_xi_jacobian (1340-1355), compute_probabilities_by_xi_tensor (1150-1182), compute_delta (582-606)"]}
{"id": "C63", "title": "Parameter tangents of choice probabilities are exact", "statement": "The tangent of choice (and conditional) probabilities with respect to every parameter in sigma, pi, rho and beta, including for log-normal and logit-normal random coefficients, is the derivative of the probabilities with respect to that parameter at fixed mean utility.", "quantifier": "all markets, agents, parameters, random coefficient types and nesting structures", "why_tests_cant": "the derivative is a limit", "anchors": ["pyblp/markets/market.py: compute_probabilities_by_parameter_tangent (1004-1148)", "pyblp/parameters.py (45-137)"]}
{"id": "C64", "title": "The xi-by-theta Jacobian is the implicit derivative of the share inversion", "statement": "The mean utilities that keep predicted shares equal to observed shares as a parameter varies are differentiable, and the xi-by-theta Jacobian holds their derivatives; the total derivatives of probabilities along that path are the updated tangents; and likewise for markups that keep solving the markup equation, and for linear parameters that are not concentrated out.", "quantifier": "all markets, agents and parameters, all differentiable paths of share-matching mean utilities", "why_tests_cant": "an implicit derivative over all demand systems", "anchors": ["pyblp/markets/market.py: compute_xi_by_theta_jacobian (1463-1478), update_probabilities_by_parameter_tangent_mapping (965-1002), compute_eta_by_theta_jacobian (1480-1518)"]}
{"id": "C65", "title": "Profit derivatives are exact", "statement": "The profit Jacobian and Hessian are the exact first and second derivatives of per-product variable profits with respect to prices.", "quantifier": "all markets, agents, prices and costs", "why_tests_cant": "the derivative is a limit", "anchors": ["pyblp/markets/economy_results_market.py: safely_compute_profit_gradient, safely_compute_profit_hessian", "pyblp/markets/market.py: compute_profit_jacobian (1291-1309), compute_profit_hessian (1311-1338)"]}
{"id": "C66", "title": "Aggregate elasticities converge to the response of total demand", "statement": "As the factor shrinks, the aggregate elasticity converges to the derivative of total inside shares with respect to a proportional change in the variable.", "quantifier": "all markets, formulations, nesting structures and epsilon scales", "why_tests_cant": "the claim is a limit", "anchors": ["pyblp/markets/economy_results_market.py: safely_compute_aggregate_elasticity (120-135)"]}
{"id": "C67", "title": "The gradient accounts for linear parameters that are concentrated out", "statement": "When linear parameters are concentrated out, the gradient that the optimiser sees is the derivative of the objective as a function of the remaining parameters only, including its indirect dependence on them through re-estimated linear parameters, whatever the weighting matrix.", "quantifier": "all data, moments, weighting matrices (including ones that link aggregate and micro moments), parameters", "why_tests_cant": "a calculus statement about every weighting matrix; tests use the default block-diagonal ones", "anchors": ["pyblp/economies/problem.py: _compute_progress (1490-1550)", "pyblp/utilities/statistics.py: IV (13-67)"]}
{"id": "C68", "title": "Optimal instruments weight expected Jacobians by the inverse error covariance", "statement": "compute_optimal_instruments returns, in the demand (supply) columns, the demand (supply) row of the inverse covariance matrix of error terms times the expected demand and supply Jacobians, and the expected Jacobians are averages over all draws.", "quantifier": "all Jacobians, covariance matrices, numbers of parameters and draws", "why_tests_cant": "index arithmetic over all sizes", "anchors": ["pyblp/results/problem_results.py: compute_optimal_instruments (1489-1528)"]}
{"id": "C69", "title": "Bootstrapped parameters respect bounds and fixed values", "statement": "Every parameter draw of bootstrap lies within the bounds configured for it, and a parameter that was fixed during estimation keeps its fixed value in every draw.", "quantifier": "all parameter configurations, estimates, bounds and random draws", "why_tests_cant": "quantifies over random draws and layouts of fixed and free parameters", "anchors": ["pyblp/results/problem_results.py: bootstrap (1176-1240)", "pyblp/parameters.py: expand (623-700)"]}
{"id": "C70", "title": "Printed standard errors are blank exactly for fixed parameters", "statement": "In tables of results, the standard error of an element of sigma, pi, rho, phi, beta or gamma is printed exactly when that element was estimated rather than fixed.", "quantifier": "all parameter configurations and all elements", "why_tests_cant": "depends on all layouts of fixed and free parameters across parameter matrices", "anchors": ["pyblp/parameters.py: format_vector, format_rho, format_phi, format_beta, format_gamma (500-562), format_nonlinear (564-621)"]}
{"id": "C71", "title": "Standard errors do not depend on whether linear parameters are concentrated out", "statement": "The covariance matrix reported for all parameters is the one obtained from the Jacobian of moments with respect to all of them, that is, with respect to each parameter holding the others fixed; in particular the reported standard errors of linear parameters that were concentrated out are the same as if these parameters had been in theta, with and without covariance moments.", "quantifier": "all data, instruments, covariance instruments, weighting matrices and parameters", "why_tests_cant": "a statement about partial and total derivatives for all data; tests do not compare standard errors across the two ways of estimating linear parameters", "anchors": ["pyblp/results/problem_results.py: _compute_mean_G (625-708)", "pyblp/economies/problem.py: _compute_progress (1374-1500)", "pyblp/utilities/statistics.py: IV.estimate (60-65), compute_gmm_parameter_covariances (113-129)"]}
{"id": "C72", "title": "Parameter sensitivity is that of the estimator that was used", "statement": "The reported sensitivity is -(G'WG)^{-1}G'W with the weighting matrix W of the estimates; it is minus a left inverse of G, and robust parameter covariances are the sensitivity times moment covariances times its transpose.", "quantifier": "all Jacobians of full rank, symmetric weighting matrices, moment covariances, types of standard errors and steps", "why_tests_cant": "identity for all dimensions; tests do not compare the measure with one computed from W", "anchors": ["pyblp/utilities/statistics.py: compute_gmm_parameter_sensitivity (132-144)", "pyblp/results/problem_results.py: ProblemResults (540-564), parameter_sensitivity docstring (127-129)"]}
{"id": "C73", "title": "Moments in innovations: differences and the gradient with respect to autocorrelation", "statement": "With moments in innovations or differenced innovations, the error terms are exactly quasi-differences of xi and omega for rows with enough lags and zero for others, and the gradient that the optimiser sees, including elements of phi, is the derivative of the objective in which linear parameters are re-estimated for each phi.", "quantifier": "all lag structures, both moment types, all data and autocorrelation parameters, with and without fixed effects", "why_tests_cant": "calculus and index statement over all lag structures; tests use small cases without fixed effects", "anchors": ["pyblp/economies/economy.py: _compute_difference, _compute_difference_derivative (437-475)", "pyblp/economies/problem.py: _compute_progress (1410-1516), solve (644-676)"]}
{"id": "C74", "title": "Quadrature tables integrate polynomials of the advertised degree", "statement": "For every available level, Gauss-Hermite rules and their nested analogs have increasing nonnegative nodes, starting at zero exactly when the level is odd or the rule is nested, and on the whole line they reproduce every moment of the standard normal distribution of degree below twice the level up to a relative error of 1e-13; weights of product rules in d dimensions sum to one up to (1+1e-15)^d-1; other levels are rejected.", "quantifier": "all levels, both families of rules, all degrees below twice the level, all dimensions", "why_tests_cant": "Tests compare a few integrals for low levels and dimensions with a tolerance; a wrong digit in one of several hundred tabulated numbers only biases estimates slightly.", "anchors": ["pyblp/configurations/integration.py:get_quadrature_data", "pyblp/configurations/integration.py:product_rule"]}
{"id": "C75", "title": "Product data are accepted exactly when shares are valid", "statement": "Product data load without a share error exactly when every share is strictly between zero and one and the shares of each market sum to less than one, so that log shares and log outside shares used to start and run the contraction exist.", "quantifier": "all product data, including missing and infinite shares", "why_tests_cant": "quantifies over all vectors of shares and market structures, including NaN, for which comparisons behave differently; tests use valid data", "anchors": ["pyblp/primitives.py: Products (218-234)"]}
{"id": "C76", "title": "Micro data are duplicated in step with the nodes built for each observation", "statement": "When nodes are built for micro data, each observation's fields are repeated once for every node built for it, so that each row carries the values of its own observation.", "quantifier": "all numbers of observations, block sizes and fields", "why_tests_cant": "index statement over all block sizes; tests use rules with the same number of nodes for each observation", "anchors": ["pyblp/primitives.py: MicroAgents (528-546)"]}
{"id": "C77", "title": "Simulated micro moment parts are the documented ratios", "statement": "For any datasets, values, markets and agents, a simulated micro moment part equals the ratio in the documentation: probabilities w_it s_ijt w_dijt (or w_it s_ijt s_ik(-h(j))t w_dijkt for second choices) times values, divided by their sum.", "quantifier": "all datasets, shapes of weights, integration weights, utilities and groups of eliminated products", "why_tests_cant": "quantifies over all integration rules and groups, including sparse grids with negative weights", "anchors": ["pyblp/markets/market.py: compute_micro_dataset_contributions (1567-1924), compute_micro_contributions (1959-2068)", "pyblp/economies/problem.py (1163-1256)", "docs/background.rst (230-295)"]}
{"id": "C78", "title": "Analytic Jacobians of micro moments are derivatives", "statement": "Wherever choice probabilities are differentiable in a parameter and market shares do not move with it, Jacobians of micro moment parts and of micro moments (with compute_gradient the gradient of compute_value) are derivatives of the simulated values.", "quantifier": "all datasets, weights, agents and parameters", "why_tests_cant": "identity of derivatives over all inputs, with a shortcut for constant denominators", "anchors": ["pyblp/markets/market.py: compute_micro_dataset_contributions (1880-1922)", "pyblp/economies/problem.py (1163-1256)"]}
{"id": "C79", "title": "Covariances of micro moment parts are documented covariances and positive semidefinite", "statement": "Covariances between parts of the same dataset equal weighted averages of products of deviations divided by the number of observations, for any number of chunks; the matrix is symmetric and positive semidefinite.", "quantifier": "all datasets, weights and values", "why_tests_cant": "quantifies over all vectors and datasets", "anchors": ["pyblp/markets/market.py: compute_micro_contributions (2033-2068)", "pyblp/economies/problem.py (1238-1256)", "docs/background.rst (275-282)"]}
{"id": "C80", "title": "Mean utilities that reproduce the observed shares exist", "statement": "For every market (with or without nesting, any epsilon_scale) and all observed shares that are positive with a positive outside share, there is a vector of mean utilities at which the integrated choice probabilities equal the observed shares; and no mean utilities yield shares without a positive outside share.", "quantifier": "all markets, agents with nonnegative weights (not all zero), nesting parameters in [0, 1), epsilon_scale > 0, positive shares summing to less than the sum of the weights", "why_tests_cant": "An existence statement about a nonlinear system of any size; tests only see that iteration stops on the data they are run on.", "anchors": ["pyblp/markets/market.py:460-660", "pyblp/markets/market.py:360-456"]}
{"id": "C81", "title": "Fixed point iteration converges to the mean utilities from every starting value", "statement": "Iterates of the contraction (also with bounds on shares that the observed shares satisfy) converge from every starting delta to the delta that reproduces the shares; the simple routine reports convergence for every positive tolerance if its budget is large enough, and what it then returns is arbitrarily close to the solution for small enough tolerances. This fails for epsilon_scale < 1: iterates may cycle forever.", "quantifier": "all markets with epsilon_scale >= 1, agents, shares, starting values, tolerances", "why_tests_cant": "A limit statement about infinitely many steps, for all starting values; tests run finitely many steps from one start, and hardly ever with epsilon_scale different from one.", "anchors": ["pyblp/markets/market.py:460-660", "pyblp/configurations/iteration.py:369-400", "pyblp/configurations/iteration.py:491-498"]}
{"id": "C82", "title": "Column formulations evaluate to the columns of the design matrix", "statement": "In every row, evaluating a column's expression on the underlying data gives the product of the term's numerical factors and of the indicators for the column's levels; evaluating it with an override of one variable gives the entry for data in which that variable alone has been replaced. This fails for terms in which a variable is both a numerical factor and a categorical one (x:C(x)).", "quantifier": "all terms (products, powers, logarithms, exponentials, any number of categorical factors), levels, rows, other columns of the formula, overrides", "why_tests_cant": "Statement about every formula a user can write; tests use a few formulas.", "anchors": ["pyblp/configurations/formulation.py:171-242", "pyblp/configurations/formulation.py:305-317", "pyblp/configurations/formulation.py:566-591"]}
{"id": "C83", "title": "Derivatives of columns are derivatives of all orders, whatever was asked before", "statement": "For every order, evaluating the derivative of a column formulation with respect to a variable gives the derivative of what evaluating the next lower order gives, and order zero gives the column, wherever logarithms and divisions are defined; the cache of derivatives never changes a result, for any sequence of earlier calls.", "quantifier": "all terms, variables, orders, points in the domain, histories of calls", "why_tests_cant": "Derivatives are limits; tests compare them to finite differences for a few formulas and call orders.", "anchors": ["pyblp/configurations/formulation.py:342-356"]}
{"id": "C84", "title": "The marker for categorical variables is validated", "statement": "A formula passes exactly if no C(...) is inside another function and, if C is outermost, functions directly inside it are applied to variables only. The documented rule, that C accepts only a single variable, is not enforced: C(x + y), C(1) and C(x, y) pass.", "quantifier": "all expression trees", "why_tests_cant": "Quantifies over trees of any depth; a test that C(x + y) fails was not written.", "anchors": ["pyblp/configurations/formulation.py:539-549"]}
{"id": "C85", "title": "Formulas cannot call arbitrary functions", "statement": "The tokens of a formula are accepted exactly if they are names that are not reserved, numbers, and arithmetic operations or parentheses, and only I, C, log and exp are called; every other name reaches the interpreter as a quoted symbol, so that it is never looked up.", "quantifier": "all token sequences", "why_tests_cant": "A safety property of all inputs, including adversarial ones; tests try a few malformed formulas.", "anchors": ["pyblp/configurations/formulation.py:501-537"]}
{"id": "C86", "title": "Markups and marginal costs are uniquely determined", "statement": "If all agents dislike higher prices, products are substitutes and the intra-firm matrix that is inverted for markups is nonsingular for every ownership matrix with ones on the diagonal and cooperation between zero and one, with or without nesting; so recovered marginal costs do not depend on how the linear system is solved.", "quantifier": "all markets, agents with positive weights, nesting parameters in [0, 1), ownership with kappa in [0, 1]", "why_tests_cant": "Nonsingularity for all parameters and sizes; tests see that inversion did not fail on their data.", "anchors": ["pyblp/markets/market.py:694-734", "pyblp/markets/market.py:668-692"]}
{"id": "C87", "title": "Estimation recovers the structural errors that data were simulated with", "statement": "On the prices and shares that replace_endogenous returns, the only mean utilities that reproduce the shares at the true parameters are the true ones, and residuals are the xi that were simulated; if prices are a fixed point and ownership is symmetric, recovered marginal costs are the simulated ones and residuals are the simulated omega, for linear and log-linear costs, if costs do not depend on shares or constant_costs=False. With constant_costs=True (the default) and shares in X3 omega is not recovered.", "quantifier": "all markets, parameters with negative price sensitivities, ownership, cost formulations, costs bounds that do not bind", "why_tests_cant": "An end-to-end identity through two nonlinear systems, for all parameters; Monte Carlo tests check it for a few designs and up to tolerances.", "anchors": ["pyblp/economies/simulation.py:660-857", "pyblp/markets/simulation_market.py:17-75", "pyblp/markets/market.py:242-298", "pyblp/markets/problem_market.py:275-309"]}
{"id": "C88", "title": "Reported profit gradients and Hessians are those of firms", "statement": "The profit gradients and Hessians that replace_endogenous reports by market and firm are the first and second derivatives of the firm's total profits with respect to its own prices, one for each of its products; all gradients are zero exactly if prices are a fixed point of the iteration, also when costs are updated with shares.", "quantifier": "all markets, firms, prices, costs", "why_tests_cant": "Derivatives are limits and equivalence with the fixed point is for all prices; tests check norms at solutions.", "anchors": ["pyblp/markets/simulation_market.py:48-72"]}
{"id": "C89", "title": "SQUAREM extrapolates along squared steps and is exact for uniform rates of convergence", "statement": "SQUAREM evaluates the contraction in cycles of three: at the current values, at the result, and at the combination of the three points with weights (1 - s)^2, 2 s (1 - s) and s^2, where s is the step length of the configured scheme truncated to the bounds in force. If every coordinate approaches the fixed point at the same rate and the bounds admit the implied step length, SQUAREM converges within three evaluations and its third evaluation returns the fixed point itself.", "quantifier": "all contractions, histories, schemes, bounds, rates different from one, dimensions and starting values", "why_tests_cant": "quantifies over all functions being iterated; tests observe only that a run ends near the fixed point", "anchors": ["pyblp/configurations/iteration.py: squarem_iterator (403-483)"]}
{"id": "C90", "title": "Outputs of post-estimation methods can be passed to other post-estimation methods", "statement": "Arrays that post-estimation methods return for all markets or for one market are accepted by other methods exactly if their shapes are right for the selected markets, and every market receives the values that were computed for it; diagonals extracted from stacked matrices belong to the right products and their means to the right markets; ownership matrices from build_ownership mean the same as firm IDs.", "quantifier": "all assignments of products to markets, including unsorted ones and markets of different sizes, all matrices and all orders of arrival", "why_tests_cant": "Involves two rounds of stacking and restriction; tests use sorted data with one layout", "anchors": ["pyblp/results/economy_results.py:65-120", "pyblp/results/economy_results.py:430-499", "pyblp/results/economy_results.py:1187-1276", "pyblp/economies/economy.py:299-335", "pyblp/markets/market.py:171-181"]}
{"id": "C91", "title": "Bootstrapped post-estimation outputs belong to their draw, product and market", "statement": "Post-estimation methods of bootstrapped results return an array with one slice for each draw in which each row belongs to the right product (or market), for every order in which draws and markets arrive, and arrays with such slices that are passed as arguments reach the market of their draw.", "quantifier": "all numbers of draws, assignments of products to markets, orders of arrival and numbers of columns", "why_tests_cant": "Quantifies over interleavings of draws and markets", "anchors": ["pyblp/results/bootstrapped_results.py:175-279"]}
{"id": "C92", "title": "Derivatives of choice probabilities are right for restricted choice sets", "statement": "The tangents of choice probabilities and of conditional probabilities that the code uses for second choices are the derivatives of these probabilities, with mean utilities moving along, when products are unavailable, when a product or all products with some ID are eliminated, or when the outside option is eliminated, and also in markets with nesting groups some of which are empty.", "quantifier": "all markets with at least one remaining option, choice sets, nesting structures, utilities, elements of Sigma and Pi, nesting parameters, and differentiable paths of mean utilities", "why_tests_cant": "A statement about derivatives at every point; empty groups and missing products are corner cases with indeterminate forms", "anchors": ["pyblp/markets/market.py:1055-1148", "pyblp/markets/market.py:360-456"]}
{"id": "C93", "title": "Probabilities of first and second choices with nesting are those of people with preferences", "statement": "With nesting parameters in [0, 1), the probabilities of first and second choices that multiply survey weights are nonnegative, add up to probabilities of first choices, and are those in every population of people with fixed preferences that accounts for choice probabilities with all options and with one option less. The documentation instead gives the product of the probability of the first choice and that of the second once the first is eliminated, which is a different number with nesting.", "quantifier": "all markets with or without nesting, availabilities under which an agent can choose something, utilities, and populations", "why_tests_cant": "Quantifies over populations that could generate the probabilities; tests compare estimates with simulated data that use the same formula", "anchors": ["pyblp/markets/market.py:1640-1900", "docs/background.rst:280-292", "pyblp/markets/market.py:360-456"]}
{"id": "C94", "title": "Jacobians of second choice micro moments are derivatives with nesting", "statement": "In markets with nesting, the Jacobian of a micro moment part with respect to a parameter in Sigma, Pi or rho is the derivative of the simulated part as mean utilities adjust to keep market shares constant, including when the Jacobian of the denominator is skipped because weights are constant across agents.", "quantifier": "all numbers of markets, agents, nesting structures, availabilities, nonnegative weights, values, and differentiable paths of utilities along which shares do not move; nesting parameters in (0, 1)", "why_tests_cant": "A statement about derivatives at every point, with a shortcut that is only right because shares do not move", "anchors": ["pyblp/markets/market.py:1700-1925", "pyblp/economies/problem.py:1160-1230"]}
{"id": "C95", "title": "Simulated micro data are draws from the model", "statement": "In data from simulate_micro_data, each observation is an agent's choice (and second choice) with probability in proportion to survey weight times integration weight times choice probability; indices point to the right agent and to the right option on the axes of the survey weights; observations are numbered from zero; and the mean of any values under this law is what compute_micro_values reports. An error is raised exactly if no choice has positive mass.", "quantifier": "all datasets, numbers of markets, agents and products, shapes of weights, probabilities, and uniform draws from [0, 1)", "why_tests_cant": "A statement about the preimage of every observation under the generator; tests see one seed and compare averages loosely", "anchors": ["pyblp/results/economy_results.py:1770-1918", "pyblp/markets/economy_results_market.py:463-468"]}
{"id": "C96", "title": "Simulated micro data are reproducible", "statement": "With the same seed, simulate_micro_data gives the same data in every session, regardless of the order in which market IDs of the dataset were listed.", "quantifier": "all economies, datasets, seeds, and orders of iteration over sets", "why_tests_cant": "Iteration over sets of strings depends on the hash seed of the process, which is constant within a test run", "anchors": ["pyblp/results/economy_results.py:1837-1912", "pyblp/micro.py:139-150"]}
{"id": "C97", "title": "Micro moments are told apart by name and evaluated at their own parts", "statement": "A list of micro moments is accepted exactly if names of moments, of parts and of datasets each identify one instance; each part is computed once however many moments share it; and each moment is evaluated at the values of its own parts in its own order. The default function of a single part and its default gradient belong together.", "quantifier": "all lists of micro moments that share parts and datasets in any way, and all values of parts", "why_tests_cant": "Combinatorial: sharing patterns and orders are unbounded", "anchors": ["pyblp/micro.py:325-437", "pyblp/results/economy_results.py:1344-1357"]}
{"id": "C98", "title": "Choice indices of micro data that are out of range are rejected", "statement": "Choice and second choice indices of micro data are accepted exactly if they are between zero and the number of options minus one, as the error message says, and select the weight of that option; indices from simulate_micro_data always do.", "quantifier": "all shapes of weights, indices, and simulated rows", "why_tests_cant": "Quantifies over all integers; tests pass valid indices", "anchors": ["pyblp/markets/economy_results_market.py:551-580", "pyblp/primitives.py:486-489"]}
{"id": "C99", "title": "Agent scores have mean zero and their part moves by the information matrix", "statement": "Scores from compute_agent_scores are slopes of log likelihoods of observations of the dataset; used as values of a micro moment part, as recommended, with missing scores replaced by anything, the simulated part is zero at the parameters at which scores were computed, and its Jacobian with respect to any parameter is the mean of products of scores.", "quantifier": "all datasets, numbers of markets and agents, nonnegative survey weights, and differentiable paths of probabilities along which market shares do not move", "why_tests_cant": "A statement about derivatives and means at every point; choices with zero probability are a corner case with missing values", "anchors": ["pyblp/results/economy_results.py:1536-1662", "pyblp/markets/economy_results_market.py:477-604"]}
{"id": "C100", "title": "Collinearity checks warn about exactly what is collinear", "statement": "Unless collinearity checks are disabled by setting both collinear_atol and collinear_rtol to zero, there is a warning about every matrix of instruments or characteristics with linearly dependent columns, and columns that are named in it are combinations of other columns.", "quantifier": "all numbers of rows and columns, matrices, tolerances, and QR decompositions", "why_tests_cant": "Quantifies over matrices and over all QR decompositions, which are not unique; tests build duplicates of one column", "anchors": ["pyblp/utilities/algebra.py:37-54", "pyblp/economies/economy.py:190-240"]}
{"id": "C101", "title": "Positive semidefinite matrices are accepted and others are not", "statement": "The check of weighting matrices and of covariances of structural errors accepts every positive semidefinite matrix whatever the tolerances, whatever it accepts is within tolerances of one, and a simulation accepts every correlation between -1 and 1.", "quantifier": "all symmetric matrices, tolerances and singular value decompositions", "why_tests_cant": "Quantifies over matrices and all of their decompositions", "anchors": ["pyblp/utilities/algebra.py:57-71", "pyblp/economies/economy.py:250-258", "pyblp/economies/simulation.py:605-618"]}
{"id": "C102", "title": "Numerical errors are detected whatever is called", "statement": "Every function for computation in a market reports exactly the floating point errors that were raised while it ran and that it does not ignore, also after it has called other such functions, and nothing else.", "quantifier": "all nested calls, error classes and sequences of floating point errors, with NumPy 1 and 2", "why_tests_cant": "Depends on global state of NumPy and on the order of nested calls; tests do not provoke floating point errors after nested calls", "anchors": ["pyblp/utilities/basics.py:667-707", "pyblp/markets/economy_results_market.py:60-95"]}
{"id": "C103", "title": "Accepted autoregressive parameters have stationary structural errors", "statement": "A simulation accepts matrices of autocorrelation parameters for which structural errors have a stationary distribution, and rejects others.", "quantifier": "all numbers of equations, matrices, eigenvalues and innovations with positive definite covariances", "why_tests_cant": "A statement about existence of covariances that solve an equation; tests use a few stable matrices", "anchors": ["pyblp/utilities/algebra.py:74-90", "pyblp/economies/economy.py:260-268", "pyblp/economies/simulation.py:619-640"]}
{"id": "C104", "title": "First-step linear estimates are two-stage least squares, equation by equation", "statement": "With the default weighting matrix, concentrated-out linear parameters are two-stage least squares estimates of demand on demand-side instruments and of supply on supply-side instruments, so that the supply side and covariance restrictions do not change estimates of demand given theta; if there are as many instruments as linear parameters, no weighting matrix changes them.", "quantifier": "all numbers of observations, parameters and instruments, and all data for which matrices can be inverted", "why_tests_cant": "Quantifies over all data sets; tests compare a few estimates", "anchors": ["pyblp/economies/problem.py:752-762", "pyblp/economies/problem.py:810-824", "pyblp/utilities/statistics.py:14-65"]}
{"id": "C105", "title": "What the type of weighting matrices changes", "statement": "Two-step GMM optimizes twice, the second time from what the first found and with the weighting matrix of first-step results; an initial update is the same as specifying the weighting matrix at initial parameter values and always happens if there are micro moments and no weighting matrix; W_type has no effect if the method is '1s', as documented.", "quantifier": "all optimization routines, estimates and weighting matrices", "why_tests_cant": "Quantifies over everything that is estimated; tests with an initial update use one W_type", "anchors": ["pyblp/economies/problem.py:466-470", "pyblp/economies/problem.py:715-719", "pyblp/economies/problem.py:806-985"]}
{"id": "C106", "title": "Second-order conditions are about parameters that are not at bounds", "statement": "The reduced Hessian, of which eigenvalues are reported, has the curvature of the Hessian in directions that do not change parameters at their bounds, is positive semidefinite exactly if the Hessian is in these directions, and has a zero eigenvalue for each parameter at a bound.", "quantifier": "all numbers of parameters, bounds (also infinite or equal ones), parameters and Hessians", "why_tests_cant": "Quantifies over directions; tests look at eigenvalues of single estimates", "anchors": ["pyblp/economies/problem.py:2345-2360", "pyblp/results/problem_results.py:450-457"]}
{"id": "C107", "title": "Absorbing fixed effects gives the same estimates as including an indicator for each", "statement": "When a formulation absorbs fixed effects, the concentrated-out linear parameters, xi and xi_fe of a solved Problem are those one would get by adding an indicator for each fixed effect to the characteristics and instruments: two-stage least squares with the default weighting matrix, and GMM otherwise, for any number of sets of fixed effects, collinear or not. xi_fe is a sum of one effect per set of fixed effects, xi sums to zero within each of their groups, and together with the contributions of characteristics they add up to delta. With instruments into which fixed effects are absorbed, the gradient is the derivative of the objective although derivatives of delta are not absorbed.", "quantifier": "for all numbers of products, fixed effects (possibly collinear), characteristics and instruments; all data, weighting matrices and mean utilities for which what is inverted has an inverse", "why_tests_cant": "A test compares estimates for a data set or two with those of a formulation with indicators; equality for all data, weighting matrices and patterns of fixed effects is an algebraic theorem about projections.", "anchors": ["pyblp/configurations/formulation.py:243-294", "pyblp/economies/problem.py:1366-1392", "pyblp/economies/problem.py:2089-2105", "pyblp/results/problem_results.py:421-427", "pyblp/economies/economy.py:380-397"]}
{"id": "C108", "title": "Instruments of a problem are excluded instruments and all exogenous characteristics, and nothing endogenous", "statement": "Initializing a problem fails unless market shares are in neither X1 nor X2, prices are in one of them and not in X3, and everything is finite; otherwise, with add_exogenous, demand-side instruments are excluded ones followed by exactly the columns of X1 that do not involve prices and supply-side instruments are excluded ones followed by exactly those of X3 that do not involve shares, so that instruments are the same whatever prices and shares are.", "quantifier": "all formulations, datasets and excluded instruments", "why_tests_cant": "Quantifies over all formulations and over counterfactual prices and shares; tests build a few formulas", "anchors": ["pyblp/primitives.py:85-280", "pyblp/configurations/formulation.py:217-315"]}
{"id": "C109", "title": "Problems with optimal instruments have as many instruments as parameters and none that is endogenous", "statement": "The problem that OptimalInstrumentResults.to_problem creates has, without shifters, one demand-side instrument per estimated parameter plus one for each fixed coefficient on an exogenous characteristic, and its instruments are the same whatever observed prices and shares are.", "quantifier": "all formulations, parameters, fixed and concentrated out, data and optimal instruments", "why_tests_cant": "Quantifies over all combinations of fixed, estimated and concentrated-out parameters and over counterfactual outcomes", "anchors": ["pyblp/results/optimal_instrument_results.py:260-300", "pyblp/results/optimal_instrument_results.py:340-416", "pyblp/economies/problem.py:2115-2170"]}
{"id": "C110", "title": "Default instruments of simulated problems are sums of the problem's exogenous characteristics", "statement": "SimulationResults.to_problem with default arguments uses as excluded instruments exactly the sums, over other products of the firm and over products of rivals, of exogenous variables of the side and of a constant if numbers of products differ across markets, unless they do not vary, and variables of only the other side; all from the data of the problem that it creates.", "quantifier": "all markets, firms, formulations, data and replaced variables", "why_tests_cant": "Quantifies over market structures, formulations and which variables a simulation replaced", "anchors": ["pyblp/results/simulation_results.py:330-427", "pyblp/construction.py:172-260", "pyblp/economies/simulation.py:820-845", "pyblp/economies/simulation.py:1020-1040"]}
{"id": "C111", "title": "Jacobians given to fixed point solvers are those of the fixed points", "statement": "Root-finding routines that ask for a Jacobian receive, with each evaluation, the derivative of what they are asked to iterate: of new prices with respect to prices (also when marginal costs depend on shares, linearly or log-linearly), of mean utilities, and of exponentiated mean utilities.", "quantifier": "for all markets, parameters, ownership matrices, cost formulations, prices, mean utilities and share bounds", "why_tests_cant": "Convergence to the right point hides a wrong Jacobian; an entry-by-entry test covers one market, and the terms for share-dependent costs, nesting, and clipping interact.", "anchors": ["pyblp/markets/market.py:548-606", "pyblp/markets/market.py:608-657", "pyblp/markets/market.py:813-883", "pyblp/configurations/iteration.py"]}
{"id": "C112", "title": "Moment covariances account for simulation error as resampled agents measure it", "statement": "With resample_agent_data, agents are resampled until the function returns None (fewer than two samples, exceptions and invalid agents are errors), and what is added to the covariance matrix of moments is the unbiased sample covariance of mean moments; it vanishes only if all samples agree, keeps the matrix symmetric and positive semidefinite, and enters standard errors in the same units as covariances of aggregate and micro moments.", "quantifier": "for all resampling functions, numbers of samples, mean moments, covariances of aggregate and micro moments and numbers of products", "why_tests_cant": "Unbiasedness and the scale relative to the number of products are statements about all distributions of draws and all sample sizes; a test compares a number with itself.", "anchors": ["pyblp/economies/problem.py:1601-1653", "pyblp/results/problem_results.py:751-757", "docs/background.rst:202-216"]}
{"id": "C113", "title": "Hessians by finite differences", "statement": "The Hessian that solve reports is symmetric and consists of averaged central differences of gradients: its error is at most a bound on third derivatives of gradients times the squared step over 24, and it vanishes for quadratic objectives. Jacobians of moments by finite differences stack demand, micro and supply rows of the same differences. Errors that happen while perturbed objectives are evaluated are reported like any others.", "quantifier": "all parameters, gradients, steps, bounds on third derivatives, and numbers of markets and moments; all error behaviours and patterns of errors", "why_tests_cant": "A test compares a Hessian with one other approximation at one point; the error of differences for every smooth objective, and what is left in the matrix if one of the perturbed evaluations fails, need an argument over all gradients.", "anchors": ["pyblp/economies/problem.py:1566-1599", "pyblp/economies/problem.py:1322-1364", "pyblp/utilities/basics.py:compute_finite_differences"]}
{"id": "C114", "title": "The analytic gradient of the GMM objective is its gradient, from markets to moments", "statement": "When theta contains elements of sigma, pi, rho, beta and gamma, the gradient that the problem hands to the optimizer is, element by element, the derivative of the GMM objective in that parameter, with mean utilities, markups, transformed marginal costs, micro moments and concentrated-out linear parameters all recomputed as the parameter moves.  Objectives evaluated together with the gradient (which invert the matrix of markups) equal those evaluated alone (which solve with it).  The same holds with covariance moments, and with moments in innovations, for which theta may also contain elements of phi.", "quantifier": "for every number of markets, products, agents, nests, instruments and micro moments, every unfixed parameter, linear or log costs, with or without a supply side and absorbed fixed effects", "why_tests_cant": "Tests compare analytic gradients with finite differences at a few points of a few simulated problems up to a tolerance; they cannot show that the chain of Jacobians is exact for all problems and parameters.", "anchors": ["pyblp/economies/problem.py:1040-1540", "pyblp/markets/problem_market.py:31-185", "pyblp/markets/market.py:935-1148", "pyblp/markets/market.py:1364-1518"]}
{"id": "C115", "title": "Matrices of choice probabilities", "statement": "For compute_probabilities, the element in row i and column k of the returned array is the probability with which the k-th agent of product i's market (in the order of agent data) chooses product i among the products of the market that are available to the agent, at given prices (with xi fixed) and mean utilities or else estimated ones; columns beyond the market's number of agents are NaN; compute_shares with the same arguments returns averages of these probabilities with integration weights; and, as the documentation says, the array can be passed to extract_diagonals.", "quantifier": "for all product data, agent data in any order, nesting structures, availability, prices, mean utilities, orders in which markets are computed", "why_tests_cant": "tests compare shapes and a few shares; they never pass probabilities to extract_diagonals and use data that are sorted by market", "anchors": ["pyblp/results/economy_results.py:355-499", "pyblp/results/economy_results.py:1187-1276", "pyblp/markets/economy_results_market.py:194-223", "pyblp/markets/market.py:66-163"]}
{"id": "C116", "title": "Markups, profits and elasticities", "statement": "With default arguments, compute_markups of a product that is its firm's only one is minus the inverse of the own-price elasticity from compute_elasticities; in general markups weighted by revenues and elasticities satisfy the firms' first order conditions; compute_profits is markups times revenues; if all agents dislike higher prices, compute_costs is below prices for every ownership matrix with cooperation between zero and one, markups are at least minus inverse own-price elasticities (strictly above for multi-product firms), assuming more cooperation never raises a cost, and compute_approximate_prices after a merger is never below observed prices.", "quantifier": "for all markets, nesting structures, price coefficients, ownership matrices with cooperation between zero and one, positive shares and prices", "why_tests_cant": "tests check signs and a few round trips on simulated data; comparative statics over all ownership matrices and all demand systems are out of reach of examples", "anchors": ["pyblp/markets/economy_results_market.py:224-237", "pyblp/markets/economy_results_market.py:303-323", "pyblp/markets/economy_results_market.py:367-396", "pyblp/markets/economy_results_market.py:137-149"]}
{"id": "C117", "title": "Importance sampling is unbiased", "statement": "If candidate agents are independent draws from a population whose inside share is the market's, then, given that enough candidates are accepted, sums over sampled agents weighted by their importance sampling weights are on average the population's: each product's predicted share is its share, and weights sum to one. The documented rule of thumb holds: more than enough candidates are accepted on average exactly if there are more than the accept-reject constant times draws over the inside share; the probability that no exception is raised is that of a binomial number being at least the number of draws. Integration weights of candidates play no role, so that candidates from a rule with unequal weights (the problem's own agents are the default) do not give that rule's integrals, whatever is drawn.", "quantifier": "for every finite population of agent types, all choice probabilities, every accept-reject constant of at least one, every number of candidates and draws, and every function of agents' types", "why_tests_cant": "Unbiasedness is a statement about averages over all random draws; a test sees one seed, and can only check that results are close to those of another rule.", "anchors": ["pyblp/results/problem_results.py:1776-1829"]}
{"id": "C118", "title": "Safe choice probabilities are numbers between zero and one in floating point arithmetic", "statement": "With the default fp_type='safe_linear', choice probabilities computed in floating point arithmetic (with rounding, overflow and underflow, and with numbers added up in any order) are finite numbers between zero and one for all finite utilities, however large or small, without nesting and with a single nesting parameter; without the safeguard this holds only for utilities that are not too large.", "quantifier": "all floating point arithmetics with monotone rounding that is exact for small integers, all numbers of products, orders of summation, and finite utilities", "why_tests_cant": "overflow and underflow depend on magnitudes and on orders of summation that tests only sample", "anchors": ["pyblp/markets/market.py: Market.compute_probabilities", "pyblp/economies/problem.py: Problem.solve (fp_type)"]}
{"id": "C119", "title": "Safeguards against overflow also work for restricted choice sets and several nesting parameters", "statement": "Choice probabilities are numbers between zero and one in floating point arithmetic also when products or the outside option are eliminated from the choice set, when products are unavailable to agents, or when groups have different nesting parameters.", "quantifier": "all choice sets, nesting parameters, and finite utilities", "why_tests_cant": "requires utilities for which the exponential of a difference over- or underflows", "anchors": ["pyblp/markets/market.py: Market.compute_probabilities (eliminate_product, eliminate_outside, availability, scale_weights)"]}
{"id": "C120", "title": "The default bound on shares keeps the contraction finite in floating point arithmetic", "statement": "With fp_type='safe_linear' and a positive lower bound on shares (by default 1e-300), the contraction evaluated in floating point arithmetic at finite mean utilities gives finite ones, also if integration weights are negative and shares underflow; so simple iteration only ever stops because it has converged or used up its budget of evaluations, never because of values that are not finite.", "quantifier": "all floating point arithmetics, market data within stated bounds, orders of summation, starting values, tolerances and budgets", "why_tests_cant": "an iteration makes thousands of evaluations whose magnitudes tests cannot enumerate", "anchors": ["pyblp/markets/market.py: Market.compute_delta", "pyblp/economies/problem.py: Problem.solve (shares_bounds)", "pyblp/configurations/iteration.py: simple_iterator"]}
{"id": "C121", "title": "Safe choice probabilities and market shares are accurate in floating point arithmetic", "statement": "Relative to exact logit probabilities at the same utilities, errors of choice probabilities that are computed safely in floating point arithmetic are at most 10 (J + 2) times the precision, where J is the number of products; and errors of market shares, relative to exact shares at the same mean utilities, are at most a similar multiple of the precision.", "quantifier": "all floating point arithmetics with a given precision, all utilities that do not overflow when subtracted, all orders of summation", "why_tests_cant": "a bound on errors for all inputs cannot be tested", "anchors": ["pyblp/markets/market.py: Market.compute_probabilities, Market.compute_delta"]}
{"id": "C122", "title": "Jacobians averaged for optimal instruments are derivatives of structural errors at data that the model generates", "statement": "In ProblemResults.compute_optimal_instruments, each draw of structural errors gives prices, shares and mean utilities that are consistent with each other, with the drawn errors, and (if prices are equilibrium prices) with the drawn costs; Jacobians of xi and omega that are averaged over draws are derivatives at these data of the errors that the problem's own inversion would recover, for linear and log costs, and whether prices are computed, given or fitted.", "quantifier": "all markets, parameters, structural errors, sources of prices, and arguments", "why_tests_cant": "a test compares averages for one configuration with stored numbers; whether each realization is internally consistent is about all draws and both kinds of costs", "anchors": ["pyblp/results/problem_results.py: ProblemResults.compute_optimal_instruments, _compute_realizations", "pyblp/markets/economy_results_market.py: safely_solve_equilibrium_realization, safely_compute_jacobian_realizations"]}
{"id": "C123", "title": "constant_costs of compute_optimal_instruments lets costs adjust to shares", "statement": "If constant_costs=False is passed to ProblemResults.compute_optimal_instruments and shares are in the formulation for X3, marginal costs at which instruments are computed adjust to the shares of each realization.", "quantifier": "all problems with shares in X3, draws, and sources of prices", "why_tests_cant": "the argument is accepted and results are plausible either way", "anchors": ["pyblp/results/problem_results.py: ProblemResults.compute_optimal_instruments (iteration, constant_costs)"]}
{"id": "C124", "title": "Bootstrapped data keep estimated structural errors at drawn parameters", "statement": "For each draw of ProblemResults.bootstrap, bootstrapped mean utilities are explained by drawn linear parameters, characteristics at bootstrapped prices, and the estimated xi; bootstrapped shares are those that the model predicts with drawn parameters; and, with a supply side, marginal costs that first-order conditions imply at bootstrapped data are explained by drawn parameters and the estimated omega, with X3 at bootstrapped shares if constant_costs=False and otherwise at observed ones. Without a supply side, prices are those in the data.", "quantifier": "all markets, draws of parameters, linear and log costs, both values of constant_costs", "why_tests_cant": "the relation must hold for every draw, and the intermediate costs are not returned", "anchors": ["pyblp/results/problem_results.py: ProblemResults.bootstrap", "pyblp/markets/economy_results_market.py: safely_solve_equilibrium_realization"]}
{"id": "C125", "title": "Default expected prices of optimal instruments are fitted values of a regression on instruments and fixed effects", "statement": "If equilibrium prices are not computed and none are given, expected prices in ProblemResults.compute_optimal_instruments are fitted values of a regression of prices on all demand-side instruments and, if fixed effects are absorbed, on an indicator for each fixed effect, whether or not covariances of instruments are singular, and whatever add_exogenous is.", "quantifier": "all instruments, prices, and fixed effects over any ordered field", "why_tests_cant": "the algebra with absorbed effects must hold for all matrices", "anchors": ["pyblp/results/problem_results.py: ProblemResults.compute_optimal_instruments (1478-1487)"]}
{"id": "C126", "title": "Mean utilities that are reported to have converged reproduce shares and are close to the exact ones", "statement": "If simple or SQUAREM iteration with the infinity norm reports convergence for a market of a random coefficients logit model without nesting, evaluated safely in floating point arithmetic with the default kind of lower bound on shares, then exact market shares at the returned mean utilities differ from observed ones by at most an explicit multiple of the tolerance (about five) plus the lower bound on shares and an explicit multiple of machine precision. The mean utilities differ from those that reproduce shares exactly by at most this accuracy times twice the inverse of the smallest probability that an agent chooses a product and then the outside option.", "quantifier": "All markets without nesting, integration weights that are not negative, tolerances, budgets, starting values, SQUAREM options, orders of summation, and arithmetics with monotone rounding and a relative precision (binary64 is an instance).", "why_tests_cant": "Convergence flags and counters are what tests look at; whether a reported convergence bounds the error in mean utilities requires an error analysis over all inputs, summation orders and sequences of iterates.", "anchors": ["pyblp/markets/market.py:542-608", "pyblp/configurations/iteration.py:369-483"]}
{"id": "C127", "title": "The contraction converges geometrically, also with rounding errors", "statement": "Every exact evaluation of the contraction brings mean utilities closer to the solution by a factor of at most 1 - g exp(-R) / 2, where R is the distance of the start and g is the smallest probability with which those who choose a product would choose the outside option if they chose again, times one minus the nesting parameter, which is positive. Without nesting and with an epsilon scale e of at least one, the factor is at most 1 - g exp(-R / e) / (2 e). In floating point arithmetic, simple iteration reports convergence within a number of evaluations that follows from this rate, if its tolerance exceeds an explicit multiple of machine precision, and what it returns is within an explicit distance of the solution.", "quantifier": "All markets, with or without nesting, and epsilon scales of at least one (with rounding errors: without nesting and with unit epsilon scale), starting values, tolerances above the stated threshold, and numbers of evaluations.", "why_tests_cant": "Rates of convergence and guarantees that a tolerance can be reached concern infinitely many starting values and all sequences of rounding errors.", "anchors": ["pyblp/markets/market.py:542-608", "pyblp/configurations/iteration.py:369-400"]}
{"id": "C128", "title": "With plain logit demand there is one equilibrium, and computing prices finds it from any starting prices", "statement": "With plain logit demand and a common distaste for prices, there is exactly one Bertrand equilibrium for any costs and firm IDs. Iterating on the zeta-markup equation converges to it from every starting prices; from prices of at least costs that the first step does not lower, prices rise in every step and never overshoot. The default routine of compute_prices and of Simulation.replace_endogenous reports convergence for every tolerance if enough evaluations are allowed, and what it returns is as close to the equilibrium as desired for small enough tolerances.", "quantifier": "All numbers of products, costs, characteristics, firm IDs, integration weights with a positive sum, starting prices, and tolerances; demand is plain logit with prices entering linearly.", "why_tests_cant": "Tests start from a few prices. The mapping is not a contraction in any usual norm, so that convergence from all starting prices, as well as existence and uniqueness, need a proof.", "anchors": ["pyblp/markets/market.py:736-892", "pyblp/configurations/iteration.py:369-400", "pyblp/results/economy_results.py: EconomyResults.compute_prices"]}
{"id": "C129", "title": "A simulated merger raises prices with plain logit demand", "statement": "With plain logit demand, changing firm IDs so that firms merge lowers no equilibrium price and raises prices of products whose firm acquired others. Fewer consumers choose any product, consumer surplus does not rise, and products of firms that acquired none gain market shares and profits. If costs are recovered from observed prices under original firm IDs, iterates of compute_prices with new firm IDs rise from observed prices to the only equilibrium.", "quantifier": "All mergers, numbers of products, costs and characteristics; demand is plain logit with prices entering linearly.", "why_tests_cant": "Signs of effects of counterfactuals must hold for all data; tests check a few simulations.", "anchors": ["pyblp/markets/market.py:171-182", "pyblp/markets/market.py:736-892", "pyblp/markets/economy_results_market.py:224-237", "pyblp/markets/economy_results_market.py:324-345", "pyblp/markets/economy_results_market.py:398-461"]}
{"id": "C130", "title": "The order of rows in product data does not matter", "statement": "Reordering rows of product data (within and across markets) only reorders outputs. Choice probabilities, also those with eliminated or unavailable products, mean utilities and their numbers of iterations, shares, Jacobians, elasticities, diversion ratios, marginal costs and equilibrium prices are those of the same products; aggregate elasticities, consumer surplus, estimates of linear parameters, moments and the objective are the same. Consumer surplus needs prices to enter utility in the same way for all products, because the marginal utility of income is taken from the first row.", "quantifier": "All numbers of products, markets and nests, all permutations, characteristics, parameters, ownership, and norms that do not depend on the order of elements (such as the default one).", "why_tests_cant": "There are factorially many orders, and a wrong pairing of rows is invisible when tests use data that are sorted.", "anchors": ["pyblp/markets/market.py:229-274", "pyblp/markets/market.py:360-667", "pyblp/configurations/iteration.py:369-510", "pyblp/markets/economy_results_market.py:97-461", "pyblp/economies/problem.py:1345-1545"]}
{"id": "C131", "title": "Only the distribution of agents matters", "statement": "Market shares, mean utilities with their numbers of iterations, Jacobians, marginal costs, equilibrium prices and consumer surplus depend on agents only through the weighted distribution of their random coefficients: reordering agents, splitting one into several with the same total weight, merging identical ones and dropping those without weight change nothing.", "quantifier": "All numbers of agents, weights, also negative ones as with sparse grids, coefficients and products.", "why_tests_cant": "Tests use a few integration rules; that no agent has a special role, such as being first, is a statement about all of them.", "anchors": ["pyblp/markets/market.py:229-274", "pyblp/markets/market.py:360-667", "pyblp/markets/market.py:669-902", "pyblp/markets/economy_results_market.py:398-461"]}
{"id": "C132", "title": "Currency and units of characteristics do not matter", "statement": "When prices are measured in another currency, with coefficients on prices divided by the exchange rate, shares, elasticities, diversion ratios, aggregate elasticities and markups are the same, marginal costs, profits and consumer surplus are converted, and compute_prices finds converted prices in the same numbers of iterations and evaluations. Units of other characteristics with random coefficients do not matter if rows of Sigma and Pi are divided by them.", "quantifier": "All positive exchange rates, numbers of products, markets, ownership, and utilities in which prices enter linearly (or such that utilities are the same at converted prices).", "why_tests_cant": "Tests keep units fixed. Constants in code, such as tolerances and replacements of zeros, could depend on units.", "anchors": ["pyblp/markets/market.py:183-347", "pyblp/markets/market.py:669-902", "pyblp/markets/economy_results_market.py:97-461"]}
{"id": "C133", "title": "Units of linear variables and instruments do not matter", "statement": "Replacing linear characteristics and instruments by invertible linear combinations of them, such as the same ones in other units, gives the same structural errors and objective, and estimates, covariances and standard errors that are those of parameters in the new units, so that ratios of estimates to standard errors do not change. Initial and updated weighting matrices, with all types of covariances, centered or not, transform as this requires.", "quantifier": "All numbers of rows, characteristics, instruments and equations, all invertible combinations, covariance types and clusters.", "why_tests_cant": "Identities of matrices for all data cannot be sampled, and floating point tests only compare a few fits.", "anchors": ["pyblp/utilities/statistics.py:14-82", "pyblp/utilities/statistics.py:85-144", "pyblp/utilities/statistics.py:147-172", "pyblp/results/problem_results.py:520-592"]}
{"id": "C134", "title": "Optimal weighting matrices and instruments are efficient, and neither matters with exact identification", "statement": "Robust or clustered ProblemResults.parameter_covariances with any weighting matrix are at least as large (no linear combination of parameters has a smaller variance, and no standard error is smaller) as those with the inverse of moment covariances; additional moments never increase covariances when both problems use their optimal weighting matrices; the optimal instruments that compute_optimal_instruments builds (inverse error covariances times Jacobians) give covariances no larger than those with any other instruments and any weights; and with as many instruments as parameters, estimates, moments (all zero) and robust covariances do not depend on the weighting matrix.", "quantifier": "All numbers of moments, parameters, equations and observations, all symmetric weighting matrices, moment covariances, Jacobians and instruments for which the matrices that are inverted have inverses.", "why_tests_cant": "Efficiency compares all weighting matrices and all instruments; simulations compare standard errors of a few at one sampled dataset.", "anchors": ["pyblp/utilities/statistics.py:27-65", "pyblp/utilities/statistics.py:85-129", "pyblp/results/problem_results.py: compute_optimal_instruments (1489-1528)", "pyblp/results/problem_results.py:546-592"]}
{"id": "C135", "title": "Tests of restrictions agree in linear problems", "statement": "In a problem with only linear parameters, for linear restrictions, when problems share the optimal weighting matrix: run_distance_test of restricted results against unrestricted results, run_wald_test of the unrestricted results, and run_lm_test at restricted parameters give the same statistic, however each objective was scaled. (False of run_lm_test on results of a problem in which restricted parameters were fixed: its gradient has only elements of the remaining parameters, so the statistic is always zero.)", "quantifier": "All linear problems, instruments, restrictions with a nonsingular Wald matrix, restricted minimisers, both kinds of covariances, scaled and unscaled objectives.", "why_tests_cant": "Tests check one statistic against another within a loose tolerance at a few estimates; that they are the same function of data cannot be sampled.", "anchors": ["pyblp/results/problem_results.py:946-1116", "pyblp/results/problem_results.py:629-706", "pyblp/economies/problem.py:1524-1528"]}
{"id": "C136", "title": "Product-specific demographics", "statement": "If each variable in agent_formulation has a field in agent_data, demographics are the formulation's columns, and values that are not finite are an error. (False of missing values: these make the first attempt fail, and the second, meant for product-specific demographics, ignores them, so the problem is built with stacked copies of columns that contain NaN.) If some variable has no field of its own, demographics of product index j are the columns at fields with suffix j, variables with their own field being the same for all products; an error names the first index for which a field is missing. In a market with J products, utilities of the product with index j depend only on demographics with index j, whatever is in other fields, and copies for all products are equivalent to standard demographics.", "quantifier": "All formulations with numeric variables, agent data, numbers of products, parameters, nodes and transformations of coefficients.", "why_tests_cant": "Which of two attempts to build a matrix fails depends on names and on values; tests build a few well-formed datasets.", "anchors": ["pyblp/primitives.py:575-608", "pyblp/primitives.py:343-348", "pyblp/configurations/formulation.py:171-242", "pyblp/configurations/formulation.py:470-485", "pyblp/markets/market.py:113-115", "pyblp/markets/market.py:184-240"]}
{"id": "C137", "title": "Variables that a simulation draws are determined by the seed and by which variables are missing", "statement": "The variables of a Simulation's formulations are their fields in product_data and agent_data or, without a field, consecutive blocks of random numbers, one for each missing variable, in an order that depends only on the formulations (and not on the order in which sets of names are iterated over, on values, or on data); draws for agents continue where those for products ended, and structural errors after these. Variables in several formulations are drawn once. A field of product_data with several columns is an error, one of agent_data gives product-specific fields with indices. Simulated shares are nonnegative and sum to less than one in each market.", "quantifier": "All sets of names in any order, all fields, numbers of products and agents, assignments of products to markets, and streams of random numbers in [0, 1).", "why_tests_cant": "That a seed gives the same data in each session is about iteration orders of Python sets, which tests in one session do not vary; that simulated shares sum to less than one holds for all draws.", "anchors": ["pyblp/economies/simulation.py:499-590"]}
{"id": "C138", "title": "Effects of costs and taxes with plain logit demand", "statement": "With plain logit demand, compare equilibrium prices before and after some costs rise (other things equal). Fewer consumers choose a product, and consumer surplus falls if epsilon_scale is one. Firms whose costs are the same raise prices and gain shares and profits. A firm that is the only one whose costs rise passes on at most the rise of each product's cost, so its other products do not become dearer; the price of the product whose cost rises most rises; the firm's profits fall. If all costs rise by the same amount, all prices rise by at most this amount and profits of all firms fall. A firm's profits are the difference between its markup and that of a firm without market share, per consumer.", "quantifier": "all numbers of products and firms, utilities, costs and changes in costs", "why_tests_cant": "tests solve for prices with a few costs; they cannot compare equilibria for all cost changes", "anchors": ["pyblp/markets/market.py:736-892", "pyblp/results/economy_results.py:717-760", "pyblp/markets/economy_results_market.py:324-345"]}
{"id": "C139", "title": "Signs of implied markups, and how they depend on conduct", "statement": "If all consumers dislike higher prices, then for every ownership matrix with ones on its diagonal and elements between zero and one, with random coefficients and nesting: compute_costs returns costs below prices; assuming more cooperation lowers costs of all products, strictly those of products whose owner internalizes more; markups are at least the inverse of own elasticities, with equality for products sold alone; products with inelastic demand have negative recovered costs; compute_approximate_prices after a merger (or more cooperation) returns prices that are not below observed ones.", "quantifier": "all markets, ownership matrices, agents, nesting parameters between zero and one, and solvers that are exact when they report no error", "why_tests_cant": "tests check a few simulated markets and cannot rule out markets in which signs differ", "anchors": ["pyblp/markets/market.py:694-735", "pyblp/markets/economy_results_market.py:226-237", "pyblp/markets/economy_results_market.py:303-323"]}
{"id": "C140", "title": "Demand slopes down and consumer surplus is bounded by changes in expenditure at all prices", "statement": "If all consumers dislike higher prices, with random coefficients and nesting, shares at other prices (compute_shares and compute_consumer_surpluses with their prices arguments) behave as demand: however much one price rises, its product's share falls, those of all others rise, and more choose the outside good; when several prices rise, products whose prices stay gain. Without income effects (prices enter utilities linearly) and with epsilon_scale equal to one, the fall in consumer surplus between any two price vectors is at least sum_j s_j(new)(new_j - old_j) and at most sum_j s_j(old)(new_j - old_j), changes in shares and in prices have a non-positive inner product, and surplus falls when no price falls and one rises.", "quantifier": "all markets, agents, nesting parameters, pairs of price vectors", "why_tests_cant": "tests compare a few counterfactual prices; derivatives at sampled prices say nothing of large changes", "anchors": ["pyblp/results/economy_results.py:806-850", "pyblp/results/economy_results.py:1058-1130", "pyblp/markets/economy_results_market.py:399-445", "pyblp/markets/market.py:429-540"]}
{"id": "C141", "title": "Options of configurations take effect as documented or are refused", "statement": "Iteration, Optimization and Integration accept exactly the documented combinations of method and options, and every accepted option reaches the routine that it is meant for: for 'simple' and 'squarem', documented defaults are used for options that are not given, and tolerances, norms and step lengths that cannot work are refused; for 'return' options are refused; compute_jacobian is refused for routines that do not use Jacobians; for optimization routines, options given override defaults. Integration accepts each size that its specification documents, and no option that has no effect.", "quantifier": "all methods, dictionaries of options, sizes", "why_tests_cant": "each misspelled or contradictory combination would need its own test, and an option that is silently ignored fails no test", "anchors": ["pyblp/configurations/integration.py:102-152", "pyblp/configurations/integration.py:154-197", "pyblp/configurations/iteration.py:146-251", "pyblp/configurations/iteration.py:369-414", "pyblp/configurations/optimization.py:160-255", "pyblp/configurations/optimization.py:548-565"]}
{"id": "C142", "title": "Formulas with absorbed fixed effects", "statement": "Formulation(formula, absorb) keeps the terms of both formulas except that intercepts are dropped if anything is absorbed, and refuses formulas without terms, with several constants, or absorbed constants. Two rows of data share a fixed effect of an absorbed term if and only if they agree on all variables of the term; only categorical variables, or those marked as such, are absorbed. It follows that main effects are redundant when interactions of them are absorbed, that any function of absorbed variables is absorbed, and that dropping intercepts changes nothing.", "quantifier": "all formulas after parsing, all data, all numbers of rows", "why_tests_cant": "tests absorb a few combinations of effects; rows that share an effect by accident would bias estimates without any error", "anchors": ["pyblp/configurations/formulation.py:104-144", "pyblp/configurations/formulation.py:244-270", "pyblp/utilities/basics.py:279-284"]}
{"id": "C143", "title": "How mean utilities depend on shares and on sizes of markets", "statement": "compute_delta is monotone: if observed shares of all products are at least as large as others, so are mean utilities, strictly so for products with larger shares; this holds with random coefficients, nesting and any epsilon_scale. If a market is assumed to be smaller, so that all shares are multiplied by c > 1, all mean utilities rise by at least epsilon_scale (1 - rho) ln c. Without heterogeneity all mean utilities of the market rise by the same number, so with absorbed fixed effects of markets, estimates and structural errors do not depend on sizes of markets; with heterogeneity they may rise by different numbers.", "quantifier": "all markets, agents, nesting parameters, shares and market sizes", "why_tests_cant": "tests invert a few shares; sizes of markets are assumptions of researchers and their effect cannot be read off any one estimate", "anchors": ["pyblp/markets/market.py:429-540", "pyblp/economies/economy.py:410-435", "pyblp/economies/problem.py:1394-1482"]}
{"id": "C144", "title": "Equilibrium prices are prices from which no firm wants to deviate, and mergers pay", "statement": "In plain logit markets (no nests, no random coefficients, prices enter linearly), prices that solve the first order conditions on which compute_prices iterates are the unique Nash equilibrium: each firm's prices are its strictly best ones among all prices of its products given those of others, not only among nearby ones. Whatever demand, prices of a Nash equilibrium are a fixed point of the price iteration. In the equilibrium after a merger, the merged firm earns at least as much as its parts did together, and more if it acquired another firm, although others adjust their prices. With random coefficients on prices, a fixed point need not be a Nash equilibrium, even if its prices are better than all nearby ones.", "quantifier": "all plain logit markets, numbers of products and firms, ownership structures, costs and deviations; all markets with differentiable demand for the necessary condition", "why_tests_cant": "A test can only compare profits at a few other prices in a few markets. That stationary prices are globally best needs an argument over all deviations, and so does the existence of markets in which they are not.", "anchors": ["pyblp/markets/market.py:736-797 compute_equilibrium_prices", "pyblp/results/economy_results.py:717-816 compute_prices", "pyblp/results/economy_results.py:957-1003 compute_profits"]}
{"id": "C145", "title": "Micro moment parts are averages over the surveyed population", "statement": "Survey weights are accepted exactly if their shape is one of the documented ones and none is negative, and values if they have the shape of weights; shapes say which options weights are about. Parts, their Jacobians and their covariances depend on ratios of survey weights and of integration weights only. Parts follow linear transformations of values, lie between the smallest and the largest value of surveyed options, and are constant without variance if values are. They do not depend on how agents represent a population (order, copies among which weights are divided, agents without weight), nor on markets without survey weights.", "quantifier": "all datasets, numbers of markets, agents and products, shapes, weights, values and probabilities", "why_tests_cant": "Tests check a few surveys with a few agents. That averages have no units and that representations of populations are irrelevant are statements about all of them; a dropped weight or a denominator that is not updated can go unnoticed with equal weights.", "anchors": ["pyblp/markets/market.py:1518-1563 compute_micro_weights, compute_micro_values", "pyblp/markets/market.py:1959-2068 compute_micro_contributions", "pyblp/results/economy_results.py:1278-1375 compute_micro_values"]}
{"id": "C146", "title": "Splitting a product into identical rows of data", "statement": "If a product is split into several rows with the same characteristics, price, nest and firm, and its share is divided among them, mean utilities that are recovered for the copies are lower than that of the original by epsilon_scale (1 - rho) times minus the log of the part, and those of other products are the same, by the closed form, by each step of the contraction and in general. Copies of such mean utilities divide each agent's probabilities with any restriction of choices, so consumer surplus, HHI, aggregate elasticities and the response of total shares to prices do not change; with the same costs, the same prices are those of a Bertrand equilibrium, the same markups are implied, and price iterations are the same. Copies that are instead as good as the original take the share of one product with a mean utility higher by epsilon_scale (1 - rho) ln(n).", "quantifier": "all markets with or without nesting, agents, numbers of copies and parts; prices that are the same for copies", "why_tests_cant": "Tests fix a set of products. How results depend on how finely products are defined is a statement about pairs of data sets, for all of them.", "anchors": ["pyblp/markets/market.py:360-456 compute_probabilities", "pyblp/markets/market.py:573-606 contraction", "pyblp/markets/market.py:668-734 compute_capital_lamda_gamma, compute_eta", "pyblp/markets/market.py:813-853", "pyblp/markets/economy_results_market.py:120-135", "pyblp/markets/economy_results_market.py:356-461"]}
{"id": "C147", "title": "Names of IDs do not matter", "statement": "Only which rows share an ID matters, not what IDs are called or how names sort. Giving other names to markets and firms (different rows with the same ID before have the same ID after, and the other way around) leaves matrices from build_ownership (if kappa follows the names of firms), BLP and differentiation instruments, and sums and means of groups as they are, row by row. Names of clusters leave moment covariances as they are. Names of markets (in product and agent data) and of nests (with nesting parameters that follow them) leave matrices from compute_probabilities and compute_shares as they are.", "quantifier": "for all product and agent data, all market, firm, nesting and clustering IDs, and all other IDs under which the same rows belong together", "why_tests_cant": "Tests use one set of names; whether code depends on how names sort is a statement about all of them, and the code sorts IDs in many places.", "anchors": ["pyblp/construction.py:64", "pyblp/construction.py:174", "pyblp/construction.py:261", "pyblp/utilities/basics.py:490", "pyblp/utilities/statistics.py:85", "pyblp/results/economy_results.py:1250", "pyblp/markets/market.py:66"]}
{"id": "C148", "title": "Simpler models are special cases of richer ones", "statement": "Nests with a zero nesting parameter and nests with a single product do not matter: probabilities, with or without the safe formulas and with any restriction of choices, mean utilities by the closed form and by the contraction, derivatives of shares, implied markups, elasticities, diversion ratios, Bertrand first order conditions and consumer surplus are those of the same market without nests, however a nesting parameter of a single-product nest is chosen. A nest with two products and a positive parameter does matter. With zero sigma and pi shares are those of one agent times the sum of integration weights, and if weights sum to one the closed form gives exactly the fixed point of the contraction. Without nests epsilon_scale is a unit of utilities: dividing utilities by it and setting it to one leaves probabilities as they are.", "quantifier": "all markets, numbers of products, agents, nests and nesting parameters below one, mean utilities, prices and integration weights", "why_tests_cant": "Tests compare a few estimates of special cases up to tolerances. That one code path agrees with another for all data, on all outputs, is a statement about both programs, not about points.", "anchors": ["pyblp/markets/market.py:360-456 compute_probabilities", "pyblp/markets/market.py:472-488 closed form", "pyblp/markets/market.py:573-606 contraction", "pyblp/markets/market.py:668-734 compute_capital_lamda_gamma, compute_eta", "pyblp/markets/economy_results_market.py:120-135", "pyblp/markets/economy_results_market.py:417-461"]}
{"id": "C149", "title": "Signs of columns of sigma do not matter with quadrature rules", "statement": "Only sigma times its transpose is a feature of random coefficients. With nodes that are distributed symmetrically in a dimension, changing the sign of the corresponding column of sigma leaves mean utilities, at each step of each fixed point routine, shares, derivatives, implied costs, equilibrium prices and consumer surplus exactly as they are, for all types of random coefficients. Nodes from product rules and sparse grids, nested or not, of any dimension and level are symmetric in this sense in each dimension if agents have the same demographics. With draws signs do matter.", "quantifier": "all markets, agents, nodes and weights that are symmetric in a dimension, dimensions and levels of rules, sigma, pi and demographics", "why_tests_cant": "Tests build a few rules and estimate with positive sigma. That all rules are symmetric after merging, pruning and reweighting nodes and that all outputs respect this symmetry is a universal statement.", "anchors": ["pyblp/markets/market.py:183-240 compute_random_coefficients, compute_mu", "pyblp/configurations/integration.py:261-371 product_rule, sparse_grid, get_quadrature_data", "pyblp/markets/market.py:458-666 compute_delta"]}
{"id": "C150", "title": "Where demographics and nodes are measured from does not matter", "statement": "With random coefficients that are linear, adding numbers to demographics (for example, subtracting means of income, or numbers that differ by product) and to dimensions of nodes lowers mean utilities by what it adds to everyone's utility: steps of the contraction are lowered versions of the same steps, and fixed point routines, SQUAREM included, take the same numbers of iterations and evaluations with the same reported convergence. If characteristics with random coefficients are also in X1, linear parameters are lowered by the common change in random coefficients, and structural errors, shares, derivatives, elasticities, implied costs, equilibrium prices and consumer surplus at all prices are the same. With lognormal coefficients no change in mean utilities makes up for this.", "quantifier": "all markets, agents, demographics, nodes, parameters, numbers that are added, starting values, absolute tolerances and numbers of evaluations", "why_tests_cant": "Tests use one set of demographics. That an affine change of data is offset exactly by parameters, through an iterative routine and all counterfactuals, is a statement about pairs of data sets.", "anchors": ["pyblp/markets/market.py:183-240 compute_random_coefficients, compute_mu", "pyblp/markets/market.py:458-666 compute_delta", "pyblp/configurations/iteration.py:369-483", "pyblp/markets/market.py:736-853 compute_equilibrium_prices", "pyblp/utilities/statistics.py:13-67"]}
{"id": "C151", "title": "Duplicating every row of product data leaves estimates, structural errors and unscaled objectives as they are, divides squared standard errors by the number of copies unless copies share clusters, and multiplies scaled objectives and test statistics by that number", "statement": "If each row of a problem's stacked data occurs k times, linear parameters are the same and structural errors are those of the rows that were copied; the matrix that is inverted for the initial weighting matrix, averaged moments and averaged Jacobians of moments are the same; covariances of moments are the same if W_type or se_type is 'unadjusted' or 'robust', or 'clustered' with clustering IDs that differ between copies, and k times as large if copies have the same clustering IDs. So the objective is the same if scale_objective is False and k times as large if it is True, and squared standard errors are divided by k, except with the same clustering IDs, for which they are the same.", "quantifier": "for all numbers of rows, copies, equations, instruments and parameters, all data, orders of rows, weighting matrices and clusters, with or without center_moments", "why_tests_cant": "It is about how results for one dataset relate to those for another, larger one for every k; tests solve problems with a given number of observations and compare a few numbers with a tolerance.", "anchors": ["pyblp/utilities/statistics.py:22-65", "pyblp/utilities/statistics.py:85-166", "pyblp/economies/problem.py:752-762", "pyblp/economies/problem.py:1508-1528", "pyblp/results/problem_results.py:546-708"]}
{"id": "C152", "title": "Tables of information, progress and results can be read: labels and cells are in the columns that lines of dashes mark", "statement": "All lines of a formatted table but its title have the same length. In its lines above and below the line of dashes, what is in the columns of each run of dashes is, up to surrounding spaces, the label or cell of that column: nothing is truncated, cells missing from a row are empty, and only cells after the last column of the header are left out. Lines of labels are aligned at the bottom of the header, unless one of its lines would be empty, in which case labels above it are left out. Rows of progress that are displayed one by one are in the columns of the header that was displayed with the first one as long as cells are as wide as those of the first row or not wider than labels. Formatting fails exactly if there are columns without any labels or rows.", "quantifier": "for all headers with labels of any number of lines, data, titles, borders and positions of vertical lines, with cells that are any strings on one line", "why_tests_cant": "Tests do not look at what is displayed; one that did would compare a table with a string for given cells, whereas alignment is a statement about all lengths of labels and cells.", "anchors": ["pyblp/utilities/basics.py:359-406", "pyblp/economies/problem.py:2397-2452", "pyblp/markets/market.py:500-541", "pyblp/parameters.py:496-621", "pyblp/economies/economy.py:163-195"]}
{"id": "C153", "title": "Displayed numbers are as close to computed ones as the number of displayed digits permits", "statement": "What is displayed for a finite number can be read as a number in scientific notation that has options.digits significant digits and is nearest among all such numbers to what was computed; it is exact if what was computed is such a number, and its first digit is zero only if it is zero. Displaying never reverses the order of numbers. Displayed numbers, infinities and NaN all take up options.digits + 6 characters, except numbers whose exponents have more than two digits, which take up more. Infinities and NaN are displayed as words. Standard errors are the same in parentheses, and take up two more characters. Durations are displayed as hours, minutes and seconds, and are off by at most half a second. Messages about progress say how many items are finished at what time; there is at most one in each minute, and none before the minute of the start is over.", "quantifier": "for all real numbers, infinities and NaN, all positive numbers of digits, all nonnegative durations and all sequences of times", "why_tests_cant": "Tests do not look at what is displayed, and examples would cover few of the ways in which rounding can change the number of digits of a mantissa or an exponent; being nearest is a statement about all numbers with that many digits.", "anchors": ["pyblp/utilities/basics.py:306-343", "pyblp/options.py:10-20"]}
{"id": "C154", "title": "Displayed tables of parameters show each parameter and its standard error where its labels say", "statement": "In tables of initial values, bounds and estimates, each element of sigma, sigma squared, pi and phi is in the row and in the column of its labels, within the block of columns that its name heads, and each element of rho, beta and gamma is below its label. Elements of sigma above its diagonal are blank. A column of types is displayed exactly if some random coefficient is not linear, and squared coefficients exactly if some element below sigma's diagonal is not zero. Standard errors are directly below values, and in tables of nonlinear coefficients and phi they are blank exactly for parameters that are not estimated. All rows have as many cells as the header, vertical lines are exactly between blocks, and what is read off the displayed text below a label is the nearest number with options.digits significant digits to the parameter.", "quantifier": "for all numbers of random coefficients, demographics, groups and linear coefficients, all labels that are not empty and on one line, all values, standard errors, and sets of fixed and estimated parameters", "why_tests_cant": "Tests never look at tables of results. A cell that is missing or added in one of the blocks would shift numbers to wrong labels for some combinations of types, covariances, demographics and fixed parameters only.", "anchors": ["pyblp/parameters.py:398-622", "pyblp/utilities/basics.py:325-406", "pyblp/results/problem_results.py:593-625"]}
{"id": "C155", "title": "Labels of theta tell which parameter each of its elements is", "statement": "ProblemResults.theta_labels and Progress.theta_labels are in the same order as theta, the gradient and the Hessian, and labels of different elements are different.", "quantifier": "for all labels, and all sets of fixed and estimated parameters", "why_tests_cant": "Tests use labels of theta at most for display. Whether labels can collide depends on which of all possible formulations are combined and which of their coefficients are not concentrated out.", "anchors": ["pyblp/parameters.py:623-657", "pyblp/parameters.py:205-213", "pyblp/configurations/optimization.py:513"]}
{"id": "C156", "title": "Displayed progress tells the truth about objectives, improvements and errors", "statement": "While a problem is solved, each row displayed for an objective evaluation holds, under their labels, the step, time, numbers of iterations, evaluations and clipped values, the objective, the gradient norm and parameters of that evaluation. The improvement that it shows is by how much its objective is less than all objectives before it, and it is empty if it is not. Rows without labels are in the columns of labels displayed last. Errors are displayed once each, in the order in which they appeared first.", "quantifier": "for all sequences of objective evaluations, computed values and errors", "why_tests_cant": "Tests do not inspect what is displayed during optimization, and which evaluations show improvements depends on the whole sequence of objectives, including ones that could not be computed.", "anchors": ["pyblp/economies/problem.py:2368-2452", "pyblp/economies/problem.py:849-904", "pyblp/exceptions.py:16-33", "pyblp/utilities/basics.py:535-553"]}
{"id": "C157", "title": "Without random coefficients, results are the textbook formulas of logit and nested logit", "statement": "When nobody has random coefficients and utilities fall by a per unit of price, results are the textbook functions of market shares: derivatives of shares (own, within a nest, across nests) with nesting parameters and shares within nests; these derivatives are symmetric and what all products together lose goes to the outside good at rate a s_0 s_k whatever the nests; elasticities and diversion ratios follow, with equal cross elasticities and diversion in proportion to shares in plain logit, where long-run diversion ratios equal diversion ratios; markups returned by compute_costs and markups in any Bertrand equilibrium are b_j / (a (1 - sum over the firm of s_k b_k)) with b_j = (1 - rho) / (1 - rho times the share of the nest that the firm sells), so that products of one firm in one nest have the same markup and in plain logit 1 / (a (1 - share of the firm)); and consumer surplus is -log(s_0) / a.", "quantifier": "for all markets, nests and nesting parameters below one, prices, firm IDs, costs and price coefficients", "why_tests_cant": "Tests compare a few simulated numbers up to tolerances; that general routines for random coefficients reduce to these formulas for every market is an identity over all inputs.", "anchors": ["pyblp/markets/market.py", "pyblp/markets/economy_results_market.py", "pyblp/results/economy_results.py"]}
{"id": "C158", "title": "Replacing prices and shares does in every market what the arguments say and reports what failed", "statement": "Simulation.replace_endogenous refuses exactly costs and prices of wrong lengths, missing costs without a supply side, an iteration that is not one, and an unknown error_behavior. Otherwise every row of the returned prices, shares and costs is what computation in the row's own market gives to that product, in whatever order markets are in the data or finish: starting prices are the given ones or costs, ownership and costs are the market's. With error_behavior='raise' there are results exactly when no market reports an error, and then all markets converged; with 'warn' the same results are returned along with the same errors. Iteration('return') with prices keeps these prices and computes their shares; without prices it gives prices that equal costs, as documented for perfect competition. Unless costs are constant, returned costs are those of returned shares, and gradient norms are zero exactly where first order conditions of the firm hold. replace_exogenous reports errors exactly when something was not computed, clipped, or not convergent, or log costs are not of positive costs.", "quantifier": "for all simulations, market IDs in any order, arguments, iteration routines, and orders in which markets finish", "why_tests_cant": "Tests replace prices in a few simulations with default arguments; that rows never mix across markets, that both error behaviors agree, and that the 'return' method does what the documentation says must hold for every simulation and routine.", "anchors": ["pyblp/economies/simulation.py", "pyblp/markets/simulation_market.py", "pyblp/economies/economy.py"]}
{"id": "C159", "title": "With nested logit demand and firms that each sell in one nest, there is one equilibrium, and mergers and costs raise prices", "statement": "When nobody has random coefficients, prices enter linearly, nesting parameters are between zero and one, and each firm sells in one nest (for example single-product firms, or any firms without nests), then for any costs there is exactly one Bertrand equilibrium, hence exactly one fixed point of the contraction behind compute_prices, so that results do not depend on starting prices or routines. Markups in it, and only in it, are (1 - rho) / (a (1 - rho W - (1 - rho) S)) with W what the firm sells of its nest and S its share. If costs of firms rise, no price falls, prices of products whose cost rises do rise, and no price rises by more than the largest rise of costs. A simulated merger within nests lowers no price and raises prices of firms that acquire products; with cost savings of at most d, no price falls by more than d. Where prices are higher, fewer consumers buy and consumer surplus is not greater.", "quantifier": "for all markets, nests, nesting parameters in [0, 1), firm IDs that keep firms in one nest, costs, mergers, and changes of costs that are the same for products of one firm", "why_tests_cant": "Existence and uniqueness quantify over all prices; comparisons of equilibria quantify over all costs and mergers. Tests only compare a few numerical solutions.", "anchors": ["pyblp/markets/market.py", "pyblp/markets/economy_results_market.py", "pyblp/results/economy_results.py"]}
{"id": "C160", "title": "Counterfactuals that change nothing change nothing", "statement": "Leaving prices, costs or shares out of ProblemResults methods gives the same as passing the observed prices, the costs implied by them and the observed shares. Passing the firm IDs of data without ownership matrices, or the ownership matrices of the data, gives the same as passing nothing. Shares and mean utilities computed at observed prices are the observed ones, compute_approximate_prices returns observed prices exactly, and compute_prices with the simple, SQUAREM or 'return' routine converges to the observed prices if ownership is symmetric with a unit diagonal.", "quantifier": "for all valid markets, data, ownership, exact linear solvers, tolerances, limits on evaluations of at least two and SQUAREM settings", "why_tests_cant": "A test runs one problem to within tolerances; it cannot say that observed prices are exactly stationary for every problem, routine and cost specification, nor find the problems for which passing unchanged arguments changes results.", "anchors": ["pyblp/results/economy_results.py", "pyblp/markets/economy_results_market.py", "pyblp/markets/market.py"]}
{"id": "C161", "title": "Sparse grids integrate polynomials exactly up to a total degree of twice their level", "statement": "Nodes and weights of Integration('grid', level) and 'nested_grid' in any number of dimensions integrate every polynomial of total degree below twice the level exactly against independent standard normals, given univariate rules that are exact up to twice their own levels; monomials are integrated exactly whenever halves of exponents rounded down add up to less than the level. Integrals of monomials with an odd exponent are exactly zero with any tables. So from level two on, agents' tastes have mean zero and exactly the covariances that sigma says. Errors of tabulated rules carry over within explicit bounds: with the package's tables, grids exist up to level 25, means and correlations of nodes are exactly zero, and variances are one up to 10^-10 per dimension.", "quantifier": "for all numbers of dimensions, levels, tables, polynomials, and sigma", "why_tests_cant": "Tests integrate a few functions with a few grids and compare with loose tolerances; exactness for every polynomial, dimension and level needs the combination of rules to telescope, and a wrong coefficient in high dimensions would only show up as a slightly different integral.", "anchors": ["pyblp/configurations/integration.py"]}
{"id": "C162", "title": "As the scale of idiosyncratic preferences vanishes, the model approaches the pure characteristics model, and only relative scales matter", "statement": "Without nests, choice probabilities and shares computed with a positive epsilon_scale approach, as it goes to zero, those of consumers who choose the best option (the outside option included, ties split evenly), and differ from them by at most the number of products times exp(-g / epsilon_scale), where g is how much worse other options are; for large scales all options become equally likely. Multiplying mean utilities, random coefficients and epsilon_scale by the same positive number changes no share, derivative, elasticity, markup, marginal cost, or step of the pricing contraction, with or without nests, and multiplies closed-form mean utilities by that number. Consumer surplus would be expected to follow too; it does not: it is proportional to epsilon_scale, vanishes with it even when the best option is worth something, and changes when all preferences are multiplied.", "quantifier": "for every market, scale, gap, mean utility, taste, choice set, price vector, ownership matrix and multiplier", "why_tests_cant": "tests use a few scales and cannot show convergence, error bounds, or invariance for all parameters", "anchors": ["pyblp/economies/simulation.py:309-319", "pyblp/economies/problem.py:1931-1945", "pyblp/markets/market.py:360-488", "pyblp/markets/economy_results_market.py:409-461"]}
{"id": "C163", "title": "Bounds on shares and marginal costs do what they are documented to do", "statement": "shares_bounds and costs_bounds are accepted exactly if they are pairs of single numbers in order, with None and NaN meaning no bound, and leave the user's arrays alone (they do not: NaN in arrays of floats is overwritten in place, and one array given for both bounds becomes an upper bound of minus infinity). Bounded marginal costs are the closest ones within bounds, exactly those outside are reported as clipped, a positive lower bound makes log costs exist and rules out the error about nonpositive costs, and Jacobians of omega have the derivatives of bounded costs, zero in clipped rows (refuted for parameters in gamma that are not concentrated out: omega still depends on them when costs are clipped, but the reported derivative is zero). Fixed points of the contraction with bounds on shares reproduce observed shares that are strictly within bounds; bounds that exclude an observed share are accepted, and then there is no fixed point, the mean utility drifts by a fixed amount per evaluation, and neither the simple routine nor SQUAREM ever reports convergence.", "quantifier": "for every pair of bounds and contents of memory, marginal cost, differentiable markup, cost specification, market, set of agents, observed share, starting value, tolerance and budget", "why_tests_cant": "tests use a few bounds that are not binding; drift, refusal to converge and derivatives are statements about all values", "anchors": ["pyblp/economies/economy.py:361-377", "pyblp/markets/problem_market.py:168-183", "pyblp/markets/problem_market.py:274-309", "pyblp/markets/market.py:547-606", "pyblp/economies/problem.py:430-456"]}
{"id": "C164", "title": "Demand without income effects is that of consumers with a convex surplus: invertible, and with symmetric and negative semidefinite Jacobians", "statement": "If utility of each agent falls in a product's own price at a rate that is the same for all products (agents may differ in this rate, in tastes and in what they can choose from, and products may be nested with any nesting parameters below one), then demand Jacobians are symmetric and negative semidefinite, so that diversion from one product to another and back agree up to own-price slopes. Changes of shares and of prices have a negative inner product whenever a price changes and an agent has weight, at any epsilon_scale. So no two vectors of prices give the same shares, and raising all prices by the same amount lowers the total of shares. With availability or eliminated products, the loss of consumer surplus still lies between what goods bought at new prices and what goods bought at old prices cost more, and surplus is convex in prices: consumers gain from variation. Shares move with mean utilities in the same strict sense, whatever prices do. With rates that differ across products of an agent, shares can move with prices, and Jacobians are not symmetric.", "quantifier": "all markets, nests, agents, weights, availabilities, sets of eliminated products, vectors of old and new prices, and mean utilities", "why_tests_cant": "Inequalities about all pairs of vectors of prices and all populations of agents; tests compare a few equilibria, in which a violation need not show.", "anchors": ["pyblp/markets/economy_results_market.py:137-157", "pyblp/markets/economy_results_market.py:347-355", "pyblp/markets/economy_results_market.py:398-461", "pyblp/markets/market.py:242-274", "pyblp/markets/market.py:300-347", "pyblp/markets/market.py:360-456", "pyblp/markets/market.py:668-692"]}
{"id": "C165", "title": "Consumer surplus is finite and accurate in floating point arithmetic", "statement": "Computed in floating point arithmetic, consumer surplus (compute_consumer_surpluses) is a finite number for all finite utilities and for any order in which numbers are added up: before dividing by the derivative of utility with respect to income it is not negative and not smaller than any rounded utility, and without nesting it differs from the exact expected maximum utility V by at most 5 eps (V + 4 J + 6), where eps is the relative rounding error. This also holds when products are eliminated or not available to some agents, and with several nesting parameters.", "quantifier": "all numbers of products, finite utilities, choice sets, orders of summation and arithmetics with monotone rounding; nesting with all nesting parameters", "why_tests_cant": "Tests compare surpluses at a few moderate utilities with fixed tolerances; overflow, underflow and rounding depend on the size of all utilities and on which products remain.", "anchors": ["pyblp/markets/economy_results_market.py:398", "pyblp/markets/economy_results_market.py:422", "pyblp/markets/economy_results_market.py:436", "pyblp/markets/economy_results_market.py:454"]}
{"id": "C166", "title": "Nested logit probabilities and surplus are accurate in floating point arithmetic", "statement": "Computed in floating point arithmetic, choice probabilities of nested logit models are numbers close to exact ones, whatever the order in which numbers are added up: with one nesting parameter rho and utilities of at most U (1 - rho) in absolute value, probabilities, and the logarithm of which consumer surplus is a multiple, differ from exact ones by at most 160 (U + J + H + 3) eps, where eps is the relative rounding error, J the number of products and H that of groups. For given utilities, probabilities also remain close to exact ones as the nesting parameter approaches one.", "quantifier": "all numbers of products and groups, assignments of products to groups, utilities, nesting parameters, orders of summation and arithmetics with accurate operations, exponentials and logarithms", "why_tests_cant": "Tests compare shares at a few parameter values with fixed tolerances; errors are made by seven chained operations, of which exponentials and logarithms amplify earlier ones, and underflow only shows when utilities are large relative to one minus the nesting parameter.", "anchors": ["pyblp/markets/market.py:406", "pyblp/markets/market.py:417", "pyblp/markets/market.py:449", "pyblp/markets/market.py:453", "pyblp/markets/economy_results_market.py:436"]}
{"id": "C167", "title": "Summaries of results tell the truth about convergence and optimality", "statement": "Printed results have a cell for each label, and each cell is what its label says. For simulations, failures are markets whose fixed points did not converge (zero exactly if all did), iterations and evaluations are totals over markets, and if profit gradients or Hessians were computed, the displayed norm and eigenvalues bound those of every firm in every market, tightly. For problems, the objective, the (projected) gradient norm, extreme eigenvalues of the (reduced) Hessian, numbers of clipped shares and costs and condition numbers appear exactly if they are meaningful, and for bootstraps, arrays have a row for each market and a column for each draw. A small displayed norm and negative displayed eigenvalues mean that first and second order conditions hold for all firms.", "quantifier": "for all statistics of markets, gradients, eigenvalues, results and numbers of draws", "why_tests_cant": "Which columns appear depends on eight conditions, so tests see few combinations, and what is dropped from a displayed maximum only matters if it is not finite.", "anchors": ["pyblp/results/simulation_results.py:175", "pyblp/results/problem_results.py:759", "pyblp/results/bootstrapped_results.py:152", "pyblp/economies/simulation.py:814"]}
{"id": "C168", "title": "Approximate prices bound equilibrium prices with plain logit demand", "statement": "With plain logit demand and recovered costs, if one firm acquires others, compute_approximate_prices overstates what the merger does to prices of its products (equilibrium prices, for example from compute_prices, are between observed and approximate prices, strictly for products of firms that merge), and understates what it does to prices of all other firms, for which approximate prices are observed prices. If costs of one firm's products rise, approximate prices pass this on completely, which is at least what equilibrium prices do for this firm's products and at most what they do for others; if a tax is levied on all products, equilibrium prices are between observed and approximate prices.", "quantifier": "for all markets with plain logit demand, ownership before and after one merger, cost changes of one firm, taxes, and exact linear solvers", "why_tests_cant": "Signs of approximation errors are a comparison between an explicit formula and the solution of a nonlinear system, for all markets; tests only compare in a few.", "anchors": ["pyblp/results/economy_results.py:658", "pyblp/markets/economy_results_market.py:303", "pyblp/markets/market.py:736"]}
{"id": "C169", "title": "Products are worth to consumers what choice probabilities say", "statement": "Without nonlinear income effects, compute_consumer_surpluses (with keep_all=True) gives each agent minus the logarithm of their probability of choosing nothing, divided by what a unit of money is worth to them, with or without nests, product availability, and eliminated products; so what any change in prices, availability, or products is worth to an agent is the logarithm of the ratio of two outside probabilities, in units of money. Eliminating products costs an agent minus the logarithm of the probability that none of them is chosen if there are no nests or if whole nests are eliminated, and no more than that if only some products of a nest are, strictly less if what is left of a nest with a positive nesting parameter was available; in general, the probability of each nest is multiplied by the share of it that is left to the power of one minus its parameter. If agents value money equally and weights sum to one, the loss in compute_consumer_surpluses is at least minus the logarithm of one minus the products' total share, which is at least that share, both in units of money: heterogeneity makes products worth more than shares suggest.", "quantifier": "all markets, prices, nests with nonnegative parameters below one, availability, sets of eliminated products, numbers of agents and weights", "why_tests_cant": "Surpluses are computed from utilities and probabilities by another function; a test compares numbers for some markets, and cannot show that the two agree, nor the direction of inequalities, for all of them.", "anchors": ["pyblp/results/economy_results.py:1058", "pyblp/markets/economy_results_market.py:398", "pyblp/markets/market.py:360"]}
{"id": "C170", "title": "Products are eliminated by ID as asked, and arguments that select products, variables and draws are validated", "statement": "compute_consumer_surpluses with a list of eliminate_product_ids gives the surplus without exactly those products that have one of these IDs in the column product_ids_index, whatever their order and repetitions, and eliminating more never raises surplus; an index is accepted exactly if it is an integer, and there is such a column of product IDs. IDs that show up nowhere are refused, a string eliminates the product with that ID, and only integers are accepted as indices. Names passed to methods that compute derivatives are accepted exactly if a column of X1, X2 or X3 uses the variable. Data given without variables in a formula have as many rows as extract_size says. Warnings about singular matrices are given exactly if the condition number exceeds options.singular_tol or cannot be computed, at most one, and none with an infinite tolerance. Bootstrapped results accept arrays exactly if they have a row for each product of the selected markets in each draw.", "quantifier": "all IDs, selections, indices, names, shapes, numbers of draws and products, tolerances and condition numbers", "why_tests_cant": "Tests pass a few valid and invalid arguments; they cannot show that everything else is accepted or refused as it should be, nor that no argument is silently misread.", "anchors": ["pyblp/results/economy_results.py:1136", "pyblp/markets/economy_results_market.py:432", "pyblp/economies/economy.py:237", "pyblp/economies/economy.py:280", "pyblp/economies/economy.py:289", "pyblp/utilities/basics.py:256", "pyblp/utilities/algebra.py:26", "pyblp/results/bootstrapped_results.py:282"]}
{"id": "C171", "title": "Diagnostics of importance sampling mean what their names say", "statement": "For sampled agents with positive weights: the effective number of draws for variance is at least one and at most that for skewness, which is at most the plain effective number, which is at most the number of draws; each is the number of draws exactly when all weights are equal; none changes when weights are rescaled (their sum does). If probabilities of choosing an inside good are between lo and hi, at least a share 4 lo hi / (lo + hi)^2 of draws is effective. A weighted mean of uncorrelated variables has as large a variance as the plain mean of the effective number of them, a mean with squared weights as that of the effective number for variance, and a weighted mean is as skewed as the plain mean of the effective number for skewness. Displayed results are the total and requested numbers of draws, and whole numbers that no market's effective numbers are below and some market's are within one of, in the same order, and the smallest and largest sums of weights.", "quantifier": "all numbers of draws and markets, all positive weights, all variables and distributions over finitely many states", "why_tests_cant": "inequalities between diagnostics and what they say about variances quantify over all weights and distributions", "anchors": ["pyblp/results/importance_sampling_results.py:80", "pyblp/results/importance_sampling_results.py:93"]}
{"id": "C172", "title": "Displayed information about problems can be read back", "statement": "The table of dimensions has a column for each of the fourteen documented dimensions that is not zero, with its value beneath its name, and no others. The table of formulations has a row for each of X1, X2, X3 and demographics that has columns, named after the matrix (and the type of costs), in which each column's formula is beneath its index. The table of micro moments has a block of rows for each moment in turn with a row for each of its parts in turn, and blocks can be told apart by their first cells; names of parts and datasets, observations and numbers of markets (or All) are beneath their labels in every row, and the name, observed and estimated values of a moment and the first less the second in the first row of its block.", "quantifier": "all dimensions, all formulations, all micro moments with any number of parts and with or without estimated values", "why_tests_cant": "that no table misplaces or leaves out anything quantifies over all problems", "anchors": ["pyblp/economies/economy.py:163", "pyblp/economies/economy.py:175", "pyblp/micro.py:436"]}
{"id": "C173", "title": "Displayed progress of fixed point iteration tells the truth", "statement": "With universal_display, each evaluation of the contraction for mean utilities or of the mapping for prices in a market has one row: beneath its labels it has the market, numbers of iterations and evaluations, the number of clipped shares if a bound on shares is finite, the largest absolute change of the vector and, exactly if this is less than all such numbers before in the market, by how much; otherwise there are spaces. Displayed improvements add up to the difference between the first and the smallest norm. Evaluations that give no number neither are improvements nor hide later ones. Labels are repeated every 50 evaluations, and call mean utilities Delta for every valid fp_type (also for those that are documented to iterate over their exponentials, since none does).", "quantifier": "all sequences of evaluations with finite, infinite and missing values, all markets, all types of fixed points", "why_tests_cant": "quantifies over all courses of iteration, including those with missing values", "anchors": ["pyblp/markets/market.py:494", "pyblp/markets/market.py:770"]}
