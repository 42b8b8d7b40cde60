# Design of the formal model of pyblp

## 1. What is trusted

* Coq 8.16.1's kernel (and `coqchk`).
* The faithfulness of the hand-written model: /repo was read as text, never run. Every
  definition cites the file and lines it models, and says where it simplifies.
* What `Print Assumptions` prints beneath each theorem (collected in section 6). These are only axioms of
  Coq's standard library: no axiom, `Admitted` or unchecked construct is added here.

General simplifications, which apply everywhere unless a definition says otherwise:

* Floating point numbers are exact: real numbers (Coq's `Reals`), rationals, or elements of an
  arbitrary real field. Rounding, overflow and underflow are modelled only in `RoundModel.v` (C118-C121). Where the code branches on
  "is this finite", numbers are the explicit type `flt` (`FltModel.v`) with NaN and infinities; `FltIEEE.v`
  proves that its operations agree with IEEE 754 (Coq's SpecFloat) when an operand is zero, infinite or NaN.
* NumPy arrays are lists (or functions of an index together with a dimension, or mathcomp matrices).
  In-place mutation becomes returning the new value, except where aliasing is the
  point of the property; there a heap of cells is modelled (C26, C42).
* Exceptions are values (`option`, or an explicit error type).
* IDs (markets, firms, clusters, ...) are integers, in the order in which NumPy sorts them.
* External numerics (LAPACK, SciPy optimisers and solvers, the random number generator, process pools,
  sympy) are function arguments or Section variables: the theorem holds for every behaviour they may have,
  or states the assumption (for example exactness of a linear solve) as a named hypothesis.

## 2. File layout (`rocq/theories`)

For each area `X`: `XModel.v` has definitions only, `XSpec.v` the small vocabulary in which properties are
stated independently of the model's helpers, `XProofs.v` (and `X*.v` helpers) the lemmas, and `XProps.v`
nothing but the property theorems, each closed by a lemma and followed by `Print Assumptions` and an
`Example ..._applies` showing that the hypotheses can be met by a concrete, non-trivial case. `Base.v` has
finite sums and maxima; `FltModel.v` the numbers with non-finite values.

| Area | Code modelled | Properties |
|---|---|---|
| Demand | markets/market.py: compute_probabilities, compute_delta; economies/economy.py: _compute_logit_delta | C01-C08 |
| Conv (ConvModel, ConvProofs, ConvRun, ConvProps) | existence of mean utilities; markets/market.py: compute_delta run by the simple routine of configurations/iteration.py | C80-C81 |
| Form | configurations/formulation.py: column formulations, underlying data, derivatives, validation | C82-C85 |
| Endo | economies/simulation.py and markets/simulation_market.py: replace_endogenous; what a problem recovers from its data | C86-C88 |
| Iter (IterModel, IterProofs, IterSquarem, IterProps) | configurations/iteration.py | C09-C11, C89 |
| Post | results/economy_results.py: selection, validation and restriction of arguments, diagonals; economies/economy.py: coercion of ownership and firm IDs; results/bootstrapped_results.py: _combine_arrays | C90-C91 |
| Supply | markets/market.py: capital lambda and gamma, eta, zeta, delta; markets/economy_results_market.py: costs, prices, elasticities, diversion | C12-C16, C59, C65 |
| Deriv (DerivModel, DerivProofs, DerivCurve, DerivParam, DerivMore, DerivImplicit, DerivCont, DerivPaths, DerivLinear, DerivProps) | markets/market.py: Hessians, derivatives by xi and by parameters; markets/problem_market.py: xi and omega Jacobians | C61-C64 |
| Pass | markets/economy_results_market.py: pass-through | C60 |
| Welfare | markets/economy_results_market.py: surplus, HHI, long-run diversion, aggregate elasticities | C17, C18, C58, C66 |
| Basics | utilities/basics.py: get_indices, Groups, structure/update/extract_matrix, parallel, finite differences; construction.py: data_to_dict | C22, C37, C48, C55, C56 |
| Sched | utilities/basics.py: generate_items; its consumers in problem.py, economy_results.py and problem_results.py; importance sampling | C19-C21, C51 |
| Results | economies/problem.py: loop over steps; results/problem_results.py: cumulative statistics, tests, optimal instruments | C49, C50, C54, C68 |
| Params | parameters.py; results/problem_results.py: bootstrap | C23, C24, C69, C70, part of C32 |
| Progress | economies/problem.py: _compute_progress, Progress | C25-C28, C57, C67 |
| Stats | utilities/statistics.py; utilities/algebra.py: approximate inversion; results/problem_results.py: _compute_mean_G, Wald test | C29-C31, C54, C71, C72 |
| Algebra | utilities/algebra.py: vech and relatives; utilities/statistics.py: covariances of sigma squared | C32 |
| Constr | construction.py: IDs, ownership, instruments | C33-C36 |
| Integ, IntegTables | configurations/integration.py, with all of its quadrature tables | C38-C41, C74 |
| Optim | configurations/optimization.py: wrappers and caches | C42 |
| Prim | primitives.py: lag indices, shares, agents, micro agents | C43, C44, C75, C76 |
| Sim | economies/simulation.py: structural errors, replace_exogenous | C52, C53 |
| Diff | economies/economy.py and problem.py: moments in innovations | C73 |
| Micro | markets/market.py, problem.py and economy_results.py: micro moments and scores | C45-C47, C77-C79 |
| Nest | markets/market.py: tangents for restricted choice sets, second choices with nesting | C92-C94 |
| Draw | results/economy_results.py: simulate_micro_data, compute_agent_scores; micro.py: MicroMoment, Moments | C95-C99 |
| Check | utilities/algebra.py and economies/economy.py: collinearity, PSD and stability checks | C100, C101, C103 |
| Fault | utilities/basics.py: NumericalErrorHandler | C102 |
| Solve | economies/problem.py: initial weighting matrix, loop over GMM steps, reduced Hessian | C104-C106 |
| Absorb (AbsorbModel, AbsorbSpec, AbsorbProofs, AbsorbWitness, AbsorbProps) | configurations/formulation.py: _build_absorb; economies/problem.py: absorption of fixed effects; results/problem_results.py: xi_fe | C107 |
| Instr (InstrModel, InstrSpec, InstrProofs, InstrProps) | primitives.py: Products.__new__ (formulations and instruments); results/optimal_instrument_results.py: to_problem; economies/problem.py: OptimalInstrumentProblem; results/simulation_results.py: default instruments | C108, C109, C110 |
| Jac (JacModel, JacProofs, JacProps) | markets/market.py: Jacobians of the fixed points in mean utilities and prices, derivatives of costs | C111 |
| Resamp (ResampModel, ResampSpec, ResampProofs, ResampProps) | economies/problem.py: resampling of agents; results/problem_results.py: moment covariances | C112 |
| Hess (HessModel, HessSpec, HessProofs, HessProps) | economies/problem.py: Hessian and Jacobians by finite differences in _compute_progress | C113 |
| Grad (GradModel, GradCovModel, GradDiffModel, GradSpec, GradProofs, GradCovProofs, GradDiffProofs, GradWitness, GradProps) | economies/problem.py and markets/problem_market.py: objective and gradient as functions of theta, from markets to moments | C114 |
| Prob (ProbModel, ProbSpec, ProbProofs, ProbWitness, ProbProps) | results/economy_results.py, markets/economy_results_market.py: compute_probabilities and compute_shares from arrays of all products and agents | C115 |
| Lerner (LernerProofs, LernerProps) | markets/economy_results_market.py: markups, profits, costs and approximate prices (definitions of Supply and Welfare) | C116 |
| Imp (ImpSpec, ImpProofs, ImpProps, ImpCount, ImpCountProps) | results/problem_results.py: _compute_importance_weights (definitions of Sched) | C117 |
| Round (RoundModel, RoundSpec, RoundProofs, RoundNested, RoundContraction, RoundAccuracy, RoundWitness, RoundProps) | markets/market.py: choice probabilities and linear contractions in floating point arithmetic with rounding, overflow and underflow | C118-C121 |
| Expect (ExpectModel, ExpectSpec, ExpectProofs, ExpectWitness, ExpectProps) | results/problem_results.py: bootstrap, compute_optimal_instruments, _compute_realizations; markets/economy_results_market.py: equilibrium and Jacobian realizations | C122-C124 |
| ExpectFit (ExpectFitModel, ExpectFitSpec, ExpectFitProofs, ExpectFitWitness, ExpectFitProps) | results/problem_results.py: fitted expected prices | C125 |
| Rate (RateSpec, RateProofs, RateRound, RateIter, RateConverge, RateWitness, RateProps, RateNestSpec, RateNest, RateNestProps) | uses RoundModel, IterModel and DemandModel | C126-C127 |
| Equil (EquilModel, EquilSpec, EquilProofs, EquilLimits, EquilGlobal, EquilRun, EquilMarket, EquilMerger, EquilWitness, EquilProps) | markets/market.py: compute_equilibrium_prices with the simple routine (definitions of Supply) | C128-C129 |
| Order (OrderSpec, OrderProofs, OrderRun, OrderEstim, OrderAgents, OrderWitness, OrderProps) | uses Demand, Supply, Conv, Welfare, Equil and Grad models | C130-C131 |
| Units (UnitsSpec, UnitsProofs, UnitsProps, UnitsIV, UnitsIVProps) | uses Supply, Welfare, Equil and Stats models | C132-C133 |
| Effic (EfficModel, EfficSpec, EfficProofs, EfficProps) | pyblp/results/problem_results.py 946-1116, 629-706 with matrices; uses Stats model | C134-C135 |
| Demog (DemogModel, DemogSpec, DemogProofs, DemogProps) | pyblp/primitives.py 343-348, 575-608; configurations/formulation.py 171-242, 470-485; markets/market.py 113-115, 184-240 | C136 |
| Draws (DrawsModel, DrawsSpec, DrawsProofs, DrawsProps) | pyblp/economies/simulation.py 499-590 | C137 |
| Tax (TaxSpec, TaxProofs, TaxMarket, TaxProps) | consequences of the Equil model: changes in costs | C138 |
| Markup (MarkupSpec, MarkupProofs, MarkupWitness, MarkupProps) | consequences of the Supply model: implied markups | C139 |
| Slope (SlopeProofs, SlopeConvex, SlopeProps) | consequences of the Supply and Welfare models: demand and surplus at other prices | C140 |
| Config (ConfigModel, ConfigSpec, ConfigProofs, ConfigProps) | pyblp/configurations/integration.py 102-197; iteration.py 146-251, 369-414; optimization.py 160-255, 299-305, 548-565 | C141 |
| Effects (EffectsModel, EffectsSpec, EffectsGroups, EffectsProofs, EffectsLinear, EffectsWitness, EffectsProps) | pyblp/configurations/formulation.py 104-144, 244-270; utilities/basics.py 279-284 | C142 |
| Inverse (InverseProofs, InverseLinear, InverseWitness, InverseProps, InverseLinearProps) | consequences of the Demand and Absorb models: other shares | C143 |
| Nash (NashSpec, NashProofs, NashWitness, NashProps) | consequences of the Equil and Supply models: other prices of firms | C144 |
| Average (AverageModel, AverageSpec, AverageProofs, AverageProps) | pyblp/markets/market.py 1518-1563; consequences of the Micro model | C145 |
| Split (SplitSpec, SplitProofs, SplitProps) | consequences of the Demand, Supply and Welfare models | C146 |
| Names (NamesSpec, NamesProofs, NamesProps, NamesClusters, NamesClustersProps) | consequences of the Constr, Basics, Stats and Prob models | C147 |
| Special (SpecialSpec, SpecialProofs, SpecialProps) | consequences of the Demand, Supply, Equil and Welfare models | C148 |
| Sign (SignSpec, SignProofs, SignProps) | consequences of the Deriv and Integ models and of C131 | C149 |
| Center (CenterSpec, CenterProofs, CenterProps, CenterLinearProps) | consequences of the Deriv, Conv, Iter, Supply and Stats models | C150 |
| Copies (CopiesSpec, CopiesProofs, CopiesProps) | consequences of the Stats, Solve and Effic models | C151 |
| Table (TableModel, TableSpec, TableProofs, TableProps) | basics.py 359-406 (format_table) | C152 |
| Format (FormatModel, FormatSpec, FormatProofs, FormatProps) | basics.py 306-343 (output_progress, format_seconds, format_number, format_se); rounding is Flocq's in radix ten | C153 |
| Show (ShowModel, ShowSpec, ShowProofs, ShowProps) | parameters.py 205-213, 398-622, 647-657 (labels, tables of parameters, compress_labels) | C154, C155 |
| Display (DisplayModel, DisplaySpec, DisplayProofs, DisplayProps) | problem.py 849-904, 2368-2452 (displayed progress), exceptions.py 16-33 (MultipleErrors), basics.py 535-553 | C156 |
| Closed (ClosedSpec, ClosedProofs, ClosedProps; no model of its own) | market.py 530-580, 639-734 (derivatives, markups), economy_results_market.py 137-240, 385-470 through the Demand, Supply and Welfare models | C157 |
| Replace (ReplaceModel, ReplaceSpec, ReplaceProofs, ReplaceProps) | simulation.py 738-856 (replace_endogenous), simulation_market.py 16-163, economy.py 271-278, 344-351; routines are arguments | C158 |
| Compet (CompetSpec, CompetProofs, CompetExist, CompetProps; no model of its own) | market.py 530-734, economy_results_market.py through the Demand, Supply and Welfare models | C159 |
| Null (NullModel, NullSpec, NullProofs, NullProps) | economy_results_market.py 105-118, 195-209, 225-235, 300-463; market.py 93-96, 171-181, 736-750, 813-892; routines and linear solvers are arguments | C160 |
| Smol (SmolSpec, SmolProofs, SmolTables, SmolProps; no model of its own) | integration.py 271-350 and 354-778 through the Integ model and tables | C161 |
| Pure (PureSpec, PureProofs, PureProps; no model of its own) | market.py 360-488 and economy_results_market.py 409-461 through the Demand, Supply and Welfare models | C162 |
| Bound (BoundModel, BoundSpec, BoundProofs, BoundProps) | economy.py 361-377 (`_coerce_optional_bounds`, with memory), problem_market.py 168-183 and 274-309 (clipped costs and their Jacobian); bounded shares through the Demand, Iter and Conv models | C163 |
| Law (LawSpec, LawProofs, LawProps; no model of its own) | market.py 242-456, 668-692 and economy_results_market.py 137-157, 347-355, 398-461 through the Demand, Supply and Welfare models | C164 |
| Logsum (LogsumModel, LogsumSpec, LogsumProofs, LogsumWitness, LogsumProps) | economy_results_market.py 398-461 in floating point arithmetic, with the arithmetic of RoundModel | C165 |
| Near (NearSpec, NearProofs, NearWitness, NearProps; no model of its own) | market.py 360-456 and economy_results_market.py 398-461 with nesting in floating point arithmetic, through RoundModel and LogsumModel | C166 |
| Summary (SummaryModel, SummarySpec, SummaryProofs, SummaryProps) | simulation_results.py 175-240, problem_results.py 759-832, bootstrapped_results.py 121-175, simulation.py 814-835, algebra.py 14-23: what printed results display below each label | C167 |
| Approx (ApproxSpec, ApproxProofs, ApproxWitness, ApproxProps; no model of its own) | economy_results_market.py 303-323 compared with equilibrium prices of market.py 736-892, through SupplyModel and EquilModel | C168 |
| Value (ValueSpec, ValueProofs, ValueProps, ValueNestSpec, ValueNests, ValueNestProps; no model of its own) | economy_results_market.py 398-470 (consumer surplus) compared with market.py 360-470 (choice probabilities), through WelfareModel and DemandModel | C169 |
| Args (ArgsModel, ArgsSpec, ArgsProofs, ArgsProps) | economy_results.py 1136-1151, economy_results_market.py 432-436, economy.py 237-249 and 280-297, basics.py 256-276, algebra.py 14-36, bootstrapped_results.py 282-328. Product IDs are numbers or strings, condition numbers are an oracle | C170 |
| Diag (DiagModel, DiagSpec, DiagProofs, DiagProps, DiagRange, DiagRangeProps) | displayed diagnostics of importance sampling (importance_sampling_results.py 80-116; formulas of a market are in SchedModel), before cells are formatted; exact arithmetic; `groups.sum` is a list of weights by market | C171 |
| Info (InfoModel, InfoSpec, InfoProofs, InfoProps) | displayed dimensions, formulations and micro moments (economy.py 159-192, micro.py 170-173, 436-470) as headers and rows of cells; formulations are their strings | C172 |
| Sweep (SweepModel, SweepProofs, SweepProps) | displayed progress of fixed point iteration (market.py 489-541, 767-811) as labels and cells; shares DisplaySpec with the progress of optimization | C173 |
| FltIEEE | agreement of FltModel with Coq's SpecFloat on zeros, infinities and NaN | (supports C20-C27, C42, C81) |

## 3. What is modelled and what is not

| Source | Modelled | Not modelled |
|---|---|---|
| utilities/basics.py | generate_items, parallel, structure_matrices, update_matrices, extract_matrix, interact_ids, get_indices, compute_finite_differences, compute_second_finite_differences, SolverStats, Groups, output_progress, format_seconds, format_number, format_se, format_table, NumericalErrorHandler and NumericalErrorDetector, warnings only as far as they become exceptions | format_options, output and output_progress's generator, extract_size, registration of pickling hooks |
| utilities/algebra.py | approximately_solve, approximately_invert, duplication, elimination and commutation matrices, vec, vech and their inverses, precisely_identify_collinearity, precisely_identify_psd, precisely_identify_stable given decompositions | compute_condition_number, precisely_compute_eigenvalues |
| utilities/statistics.py | all of it | rounding |
| configurations/iteration.py | Iteration.__init__ checks that matter, _iterate, simple, squarem, the SciPy wrapper, contraction wrapper | the SciPy routines themselves, which are arbitrary decision trees; formatting |
| configurations/optimization.py | Optimization.__init__, default options, objective wrapper, caches, Knitro callbacks | the routines themselves, which are arbitrary sequences of requests; formatting |
| configurations/integration.py | Integration.__init__, all builders, same_size_sequences, product rules, sparse grids, tables | inverse normal distribution function (a parameter) |
| configurations/formulation.py | column expressions, underlying data, evaluation with overrides, derivatives and their cache, validation of tokens and of the marker C, Formulation.__init__ and _build_ids after parsing | Patsy's splitting into terms and choice of levels, SymPy's parser and simplifications, powers that are not integers, how PyHDFE absorbs (a matrix with the defining properties of residuals) |
| construction.py | build_id_data, build_ownership, build_blp_instruments, build_differentiation_instruments, data_to_dict | build_matrix, build_integration, save_pickle, validation of arguments |
| parameters.py | Parameters.__init__, bounds, store, compress, expand, extract_sigma_vector_covariances, derivatives of random coefficients, which standard errors are printed, labels, tables of parameters, labels of theta | how labels are made from formulations; checks 258-275 |
| primitives.py | lag indices, shares, formulations of X1, X2, X3 and instruments, Agents, MicroAgents duplication and sort check | nesting and ownership fields |
| economies/economy.py | _compute_logit_delta, _compute_difference, _lags, coercion of firm IDs, ownership and bounds, collinearity, PSD and stability checks | formatting |
| economies/problem.py | loop over steps, initial weighting matrix, reduced Hessian, _compute_progress, Progress, moments types check, aggregation of micro moments, objective and gradient, absorption of fixed effects, OptimalInstrumentProblem, simulation covariances, Hessian and Jacobians by finite differences, formatting of progress | beta/gamma bounds, formatting of problems |
| economies/simulation.py, markets/simulation_market.py | structural errors, replace_exogenous, replace_endogenous (arguments, all markets, errors, summary of failures and iterations) | construction of product data, micro data simulation, eigenvalues of profit Hessians |
| markets/market.py | mu, delta, utilities, probabilities with nesting, safe rescaling, elimination; lambda, gamma, eta, zeta; every Jacobian, Hessian and tangent by xi and theta; tangents for restricted choice sets; micro contributions with and without nesting; rounding in probabilities and linear contractions | agents_updates by data overrides |
| markets/problem_market.py | xi and omega Jacobians; which values are reverted | scheduling of numerical Jacobians |
| markets/economy_results_market.py | elasticities, diversion ratios, long-run diversion, costs, pass-through, prices, shares, HHI, markups, profits, surpluses, aggregate elasticities, matrices of probabilities | NaN in arguments |
| results/problem_results.py | cumulative statistics, covariances and sensitivity, test statistics, bootstrap clipping, bootstrapped data, realizations and fitted prices for optimal instruments, importance weights | formatting, pickling |
| results/economy_results.py | _combine_arrays, selection, coercion and restriction of arguments, extraction of diagonals, compute_micro_scores aggregation, simulate_micro_data, compute_agent_scores without integration | conversion of arguments to arrays |
| results/bootstrapped_results.py | _combine_arrays and arguments | __init__, formatting |
| results/optimal_instrument_results.py | to_problem with default arguments | custom indices and shifters, which are arbitrary columns |
| results/simulation_results.py | default instruments and replaced data of to_problem | other arguments, formatting |
| results/importance_sampling_results.py | effective draws | conversion to problems |
| micro.py | registration of moments, parts and datasets | validation of types |
| exceptions.py, options.py, data | errors are names, the text of MultipleErrors is modelled; options that matter are arguments | everything else |

## 4. Plan per property

| Property | Model | Proof idea |
|---|---|---|
| C01, C02 | agent by agent, utilities as functions of products with group labels; safe and unsafe paths transcribed | algebra with exp; positivity of sums |
| C03 | `_compute_logit_delta` | ln/exp cancellation |
| C04 | contraction as a map on vectors | ln x = ln y iff x = y |
| C05, C06 | predicted shares as weighted sum over agents | maximal-difference argument; monotonicity |
| C07 | the dispatch on fp_type as a function on strings | refuted: `'linear' in 'nonlinear'` |
| C08, C47 | elimination as dropping a term from the denominator | algebra |
| C09-C11 | iterators as fuelled recursions over an arbitrary contraction, with non-finite values | induction on fuel |
| C12, C13 | solver oracle; markups and zeta | linear algebra; refuted for general ownership |
| C14, C59, C61-C66 | stdlib `derivable_pt_lim` of the model's own share function | derivatives of quotients, chain rules, implicit differentiation |
| C15 | error lists as function of iteration outcome; truthiness of objects | refuted |
| C16, C58, C60 | functions over reals | row sums; refuted for asymmetric Jacobians |
| C17, C18 | log-sum-exp; firm shares | derivative of ln; merger identity |
| C19-C21 | completion order as a permutation of keys | writes into disjoint slots |
| C22, C35 | sort + reduceat on lists, for every argsort | sortedness and permutation |
| C23, C24, C69, C70 | parameter matrices as functions on locations | induction on location lists |
| C25-C27 | evaluation as state machine; heap cells for aliasing | induction over histories |
| C28, C57, C67, C73 | objective as function of a scalar path | envelope argument |
| C29-C31, C54, C71, C72 | mathcomp matrices over a real field; try/except cascade | matrix algebra |
| C32 | index functions | index arithmetic; Penrose conditions |
| C33-C37 | lists | induction, floor arithmetic |
| C38-C41, C74 | digit expansions, permutations, sequences; tables as rationals | number theory, induction, checked computation in Z |
| C42 | wrapper as state machine over request lists | invariant |
| C43-C46, C75, C76 | validation and alignment on lists | case analysis |
| C48 | context manager as interpreter over a small command language | induction |
| C49, C68 | location-scale draws, expectations as linear functionals | algebra |
| C50 | step records | induction over steps |
| C51-C53, C55, C56 | lists, reals | algebra |
| C77-C79 | sums over agents and cells | algebra, quotient rule |
| C80, C81 | monotone and nonexpansive maps on R^J; the iteration loop as a function of its budget | monotone sequences from above and below, intermediate values for the cycle |
| C82, C83 | expression trees, environments | structural induction, chain rule |
| C84, C85 | trees and token lists | induction |
| C86 | matrices as functions, sums | strict diagonal dominance |
| C87, C88 | one market; residuals at given parameters | uniqueness of delta and of markups, derivatives |
| C89 | SQUAREM as a log of evaluations and steps | induction; algebra of squared steps |
| C90, C91 | arrays with shapes; stacking as in C19 | positions within markets; permutations |
| C92 | one agent, any choice set | derivatives of exponentials, logarithms and quotients |
| C93 | rankings of options in finite populations | induction on rankings; monotonicity of nested logit |
| C94 | sums over agents and cells | quotient rule; uniqueness of derivatives for the constant denominator |
| C95, C96 | lists of labels with weights | induction on cumulative sums; permutations |
| C97 | instances as numbered records | induction on lists of earlier elements |
| C98 | lists and integers | case analysis |
| C99 | sums over agents and cells | algebra; nonnegative functions are flat where they are zero |
| C100, C101, C103 | matrices over any real field; decompositions as arguments with their defining equations | orthogonality, triangular solves; nonnegative quadratic forms; powers of eigenvalues |
| C102 | programs of floating point errors and nested calls | induction on programs, invariants of the global state |
| C104 | matrices over any real field; inverses with their defining equations | block matrices, first-order conditions |
| C105 | loop over abstract optimization and estimation | unfolding; a witness over the rationals |
| C106 | matrices over any real field | sums |
| C107 | matrices over any real field; absorption is a matrix that gives residuals | block matrices, projections; witnesses over the rationals |
| C108 | expressions for columns; errors as values | case analysis on checks; an equivalence |
| C109 | lists of columns on top of parameters | counting with duplicate-free lists; counterfactual outcomes |
| C110 | lists of columns on top of sums over groups | sums over rows from C35 |
| C111 | real arrays, derivatives in one variable | chain rule on C62's derivatives; local equality near the point where nothing is clipped |
| C112 | matrices over any real field; a loop with a number of rounds | sums over pairs; finite probability spaces |
| C113 | numbers with special values on top of the model of objective evaluations | induction on perturbed parameters; mean value theorem for third-order remainders |
| C114 | points, parameters and markets put together from the models of C64, C94 and C67 | one lemma per link (mean utilities, markups, costs, cells of micro data), then the gradient of a concentrated objective |
| C115 | lists of IDs and real arrays indexed by rows of all markets | sums over rows of a market as masked sums; renumbering of nests |
| C116 | the models of C12, C59 and C86 | matrices inverted for markups have inverses without negative elements: look at the smallest element of a solution |
| C117 | the model of C51; finite populations, means over candidates by recursion | induction on candidates: accepted candidates are draws with probabilities proportional to acceptance |
| C118, C119 | an abstract floating point arithmetic: monotone rounding, exact on small integers, with overflow; trees for orders of summation | monotonicity puts the denominator above the numerator and above one; double precision (Flocq) for witnesses |
| C120 | the same, on top of the model of iteration | bounds that grow by a constant with each evaluation |
| C121 | the same, with relative errors | errors of exponentials at nonpositive numbers are absolute; errors of sums are relative to their result |
| C122-C124 | one market of C114 with prices and shares overridden; the iteration routine is an arbitrary function | the realized market is the market of C66's endogenous data, so C114's derivatives apply to it |
| C125 | matrices over any real field | fitted values are unique although parameters need not be; witnesses over the rationals |
| C126 | Round and Iter models | the last evaluation that a routine makes is small, so logarithms of shares are close; shares determine mean utilities through agents who waver between a product and the outside option |
| C127 | the same | distances shrink because some agents choose the outside option, and with nesting or a scaled idiosyncratic term by a part of that; rounding errors accumulate to a geometric sum |
| C128 | Supply, Conv and Iter models; plain logit demand | markups of a step solve a best response inequality; upper limits of iterates are a subsolution, falls of markups vanish because shares of two firms sum to less than one, lower limits are a supersolution |
| C129 | the same | equilibrium prices before the merger are a subsolution after it |
| C130 | Demand, Supply, Conv, Iter, Welfare, Grad models | sums and maxima over renumbered products are the same; iterations are related step by step; solutions of reordered systems are unique |
| C131 | the same | every output is a function of averages over agents of functions of their coefficients |
| C132 | Supply, Conv, Welfare models | derivatives with respect to prices are divided by the exchange rate, which cancels in weighted first order conditions |
| C133 | Stats model | congruences of information matrices; left inverses are unique |
| C134 | Stats model | the difference of covariances is a congruence of moment covariances |
| C135 | Effic model | the restricted minimiser is the unrestricted one plus a step that is orthogonal to the rest |
| C136 | Demog model | induction over product indices; extensionality of sums |
| C137 | Draws model | insertions into sorted lists commute; invariants of loops over names |
| C138 | Equil proofs | an aggregative game: each firm's markup is increasing in its share of the sum of exponentials, which costs move |
| C139 | Endo proofs | the matrix that is inverted for markups is an M-matrix: dominant diagonal and no positive elements elsewhere |
| C140 | Endo and Welfare proofs | the mean value theorem along each price; weighted averages of exponentials (the log-sum is convex) |
| C141 | Config model | case analysis over methods and options |
| C142 | Effects model, Absorb proofs | lists of rows; the span of indicators of coarser groups |
| C143 | Demand and Absorb proofs | the largest difference in mean utilities, as for uniqueness |
| C144 | Equil and Supply proofs | t exp(-t) is largest at one, applied to average margins of a firm; derivatives vanish at maxima |
| C145 | Micro proofs, Average model | sums over agents and options; fibres of a map between agents |
| C146 | Demand, Supply and Welfare proofs | sums over fibres of the map from copies to originals |
| C147 | Constr, Basics, Stats and Prob theorems | specifications mention IDs only through equality; sums over nests as sums over products |
| C148 | Demand, Supply and Welfare proofs | sums over nests as sums over products; uniqueness of mean utilities |
| C149 | Order and Integ theorems | rules as iterated sums, each of them symmetric; agents with the same distribution |
| C150 | Deriv, Iter and Supply models | probabilities depend on sums of delta and mu; routines commute with translations |
| C151 | Stats proofs, Names (outer products of cluster sums as sums over pairs) | sums over copies by reindexing; information scales by k² |
| C152 | lists of characters | lines as sequences of padded cells and separators; a reader that groups what is under runs of dashes |
| C153 | Table model, Flocq's FLX format in radix ten | reading what is written; rounding to nearest is monotone and keeps numbers with that many digits |
| C154 | Table, Format and Params models | rows and header as the same sequence of blocks; C152 for reading and C153 for numbers |
| C155 | Params proofs (order of theta) | labels split at their first space; witnesses from C23 |
| C156 | Progress, Table and Format models | running minimum over objectives that arrays held when they were displayed; widths of cells bounded by widths of labels |
| C157 | Demand, Supply and Welfare proofs | with no random coefficients probabilities of agents are shares, so that sums over agents disappear; markups by summing first order conditions over a firm |
| C158 | Replace, Endo, Sched proofs | refusals and returned rows by cases; rows of markets through the assembly of C46; a market with costs that increase with shares refutes documented perfect competition |
| C159 | Closed and Supply proofs | markups of a firm in one nest increase with prices of others and decrease when all prices rise; comparing equilibria at the largest fall of prices; existence by completeness of the reals and continuity in own prices |
| C160 | Supply and Conv proofs | observed prices are Bertrand at implied costs, so the contraction of prices has them as a fixed point; routines stay at fixed points; zero markups of changed ownership cancel in approximate prices |
| C161 | Integ proofs | combinations of products are alternating sums of convolutions, which telescope into convolutions of differences between levels; differences vanish from the level where a moment is exact; errors by induction on dimensions |
| C162 | C01, Welfare proofs | divide numerators and denominators of logit probabilities by the exponentiated highest utility; what remains is exponentially small; a finite number of types has a common gap; scaled utilities are unchanged when everything is multiplied |
| C163 | Demand, Conv and Endo models | coercion by cases on memory; costs by local equality of clipped and unclipped costs; shares by the least change that one evaluation makes and an invariant of both routines |
| C164 | Demand, Supply and Welfare models | the log-sum lies above its tangents, by exp(x) >= 1 + x twice (within and across nests); adding two tangents gives monotone probabilities; the Jacobian by differentiating along a line |
| C165 | surplus in floating point arithmetic | the argument of the logarithm is rounded to between 1 and J + 1 if the highest utility remains; monotone rounding bounds the rest; accuracy from relative errors of the argument and ln a - ln b <= a / b - 1 |
| C166 | nested probabilities and surplus in floating point arithmetic | a calculus of relative errors: near k x y says that x / y is between exp(-k) and exp(k); sums keep k, products and quotients add k, logarithms turn k into an absolute error and exponentials back; exact probabilities are insensitive to errors of scaled utilities |
| C167 | what printed results say | tables as lists of labels and cells, looked up by label; maxima and minima as in Python and NumPy over numbers that may be infinite or NaN. |
| C168 | approximate prices after mergers and cost changes | approximate markups are those of costs that would rationalize observed prices after the merger, so both markups are the same function of the firm's total share; in the new equilibrium, fewer consumers choose any product and outsiders gain, so the merged firm's total share falls |
| C169 | what products are worth | both surpluses and probabilities are functions of group weights; eliminated products leave the weight of a group times a power of the share of what is left; Jensen's inequality from the tangent of the logarithm |
| C170 | arguments that select products, variables and draws | membership, substrings and shapes are characterised exactly; monotonicity of surplus from that of group weights |
| C171 | diagnostics of importance sampling | Cauchy-Schwarz for power sums by nonnegative quadratics; second and third moments of weighted means over finitely many states |
| C172 | displayed information about problems | cells looked up by the labels above them; blocks of rows by first cells that are not blank |
| C173 | displayed progress of fixed point iteration | the smallest norm so far as a running minimum over values that may be missing, as for objectives in C156 |

## 5. Findings

Properties that are false of the faithful model are recorded by `..._refuted` theorems, each with a concrete
witness, together with what does hold. All line numbers are in /repo at the pinned commit.

| Property | Defect | Where |
|---|---|---|
| C06 | the contraction expands distances for epsilon_scale < 1 (accepted by the configuration) | market.py 573-606 |
| C81 | with epsilon_scale < 1, whose documented use is to approximate pure characteristics models, iterates may alternate forever between two values although a solution exists (the documentation blames failures on underflow; none is involved) | market.py 573-606 |
| C07 | `'linear' in fp_type` also holds for `'nonlinear'` and `'safe_nonlinear'`: the nonlinear contraction is unreachable (and its dead safe nested variant would be wrong) | market.py 543 |
| C11 | step_factor < 1 is accepted and lets SQUAREM's step exceed step_max | iteration.py 447-457 |
| C13 | zeta uses ownership's transpose and assumes a unit diagonal: fixed points are not Bertrand prices for such matrices | market.py 694-734 |
| C15 | the truth value of a SolverStats object is tested, which is always true: failure to find equilibrium prices is never reported | economy_results_market.py 341-343 |
| C16 | diversion ratios divide rows where the documented definition needs columns | economy_results_market.py 169-182 |
| C17 | consumer surplus ignores epsilon_scale; with nonlinear prices the price derivative is taken at the wrong prices | economy_results_market.py 417-457 |
| C18 | HHI divides by inside shares, unlike the documentation | economy_results_market.py 356-365 |
| C19 | product-level outputs are stacked in market order if every market has one product | economy_results.py 1250-1276 |
| C90, C91 | as a consequence of C19, such outputs reach the wrong markets when passed to another method (for example costs to compute_markups), also for bootstrapped results | economy_results.py 1231-1276, bootstrapped_results.py 222-272 |
| C21 | importance sampling threads the random state through markets in order of arrival | problem_results.py 1800-1827 |
| C25 | after a gradient-free evaluation the stored Jacobian of xi is NaN, so later reversions insert NaN | problem.py 1117-1161, 1305-1320 |
| C26 | with 'revert', a failed objective is the last evaluation's array, multiplied in place | problem.py 1530-1556 |
| C67 | the gradient is not the derivative for weighting matrices that link micro moments with others while linear parameters are concentrated out | problem.py 1533-1540 |
| C31 | use of pseudo-inverses and diagonal inverses is silent because `replacement` is reset on success; a RuntimeWarning can escape | algebra.py 147-177 |
| C33 | excess products do not go to firms with smaller IDs | construction.py 60 |
| C36 | local differentiation instruments with interactions have the sign opposite to the documentation | construction.py 415-429 |
| C37 | a field x with columns next to a field named x2 is read back with an extra column | construction.py 602-607, basics.py 226-253 |
| C38 | scrambled Halton blocks (the default) use separate digit permutations, so that blocks of different markets can coincide | integration.py 206-225 |
| C42 | gradients are handed out by reference: a routine that overwrites its gradient sees the overwritten one on the next request | optimization.py 534-546 |
| C43 | `not (a >= 0).all() & (a <= N - 1).all()` misplaced parentheses: too large, missing and fractional lag indices are accepted | primitives.py 200 |
| C44 | agent IDs and availability are misaligned when agent data are not sorted by market or row counts differ | primitives.py 369-391 |
| C45 | the check that micro_ids are sorted compares each row with itself; denominators only cover markets that are in micro_data | primitives.py 499, economy_results.py 1664-1790 |
| C46 | Jacobians of denominators depend on the number of chunks: weights constant within each chunk are taken as constant | market.py 1914 |
| C48 | leaving an inner parallel context leaves the outer one without its pool; one process does not mean no pool inside another context | basics.py 49-169 |
| C49 | normal errors are drawn with scale equal to the variance | problem_results.py 1449 |
| C52 | rows whose lags form a circle are accepted, and their errors are never autocorrelated | simulation.py 631-640 |
| C59, C62 | epsilon_scale is left out of elasticities with respect to the mean utility and of the Jacobian of the contraction | economy_results_market.py 137-157, market.py 582-606 |
| C60 | pass-through uses untransposed Jacobians and Hessians | economy_results_market.py 255-300 |
| C70 | format_gamma looks up fixed elements of beta | parameters.py 526-528 |
| C71 | with covariance moments, standard errors of concentrated-out parameters use Jacobians that were already converted | problem.py 1378, problem_results.py 391 |
| C72 | sensitivity after one step with unadjusted standard errors uses updated weights | problem_results.py 546-564 |
| C73 | demand-side fixed effects are accepted together with supply-side moments in innovations (and the other way round) and the gradient is then wrong | problem.py 644-676 |
| C77 | weighted probabilities are truncated at zero, which drops agents with negative integration weights; with groups of eliminated products the first choice is weighted by its group's share | market.py 1842-1878 |
| C78 | tangents are not truncated with groups, so that Jacobians are not those of the truncated moments | market.py 1880-1908 |
| C82 | in a term such as x:C(x), replacing the categorical symbol by its indicator also replaces the numerical factor, so that the column formulation evaluates (and is differentiated) as a squared indicator | formulation.py 311-316 |
| C84 | the check for a single variable looks one level too deep: C(x + y), C(1) and C(x, y) pass | formulation.py 539-549 |
| C87 | by default, replace_endogenous holds costs constant at shares that the data had before, so that if shares enter X3 the omega that rationalises the simulated data is not the simulated one (documented as a caveat) | simulation.py 700-706, simulation_market.py 43-46 |
| C93 | with nesting, the documented probability of a first and a second choice (a product) is not what the code computes (a difference), and not what any population that explains the probabilities does; the code is right | background.rst 289, market.py 1850-1874 |
| C96 | simulate_micro_data iterates over a Python set of market IDs, so that with string IDs the same seed gives different data in different sessions; compute_agent_scores with integration stacks agents in the same order | economy_results.py 1837-1840, 1609 |
| C98 | negative choice indices are accepted and count from the end, although the error message says between 0 and J | economy_results_market.py 551-580 |
| C100 | setting one of collinear_atol and collinear_rtol to zero disables the check, although messages say both; a named column need not be collinear with others; with one row and several columns there can be no warning | algebra.py 43, economy.py 197-232 |
| C102 | with NumPy 1, a nested decorated function leaves its detector behind, so that later floating point errors of the caller are lost or attributed to the callee | basics.py 667-707 |
| C103 | the stability check accepts a spectral radius of exactly one (and up to tolerances more), for which there is no stationary distribution, although the message asks for less than one | algebra.py 74-90 |
| C105 | W_type is documented to have no effect with method '1s', but an initial update (the default with micro moments) uses it for the first step | problem.py 466-470, 806-985 |
| C109 | OptimalInstrumentProblem adds all of X3 to supply-side instruments, also characteristics that involve shares, which thereby instrument for themselves; the documentation says exogenous characteristics are added and Products leaves out those with shares | problem.py 2136-2138, primitives.py 152-155 |
| C110 | after replace_exogenous, default instruments of to_problem are sums of the characteristics before they were replaced, and miss variation of the problem's own characteristics | simulation_results.py 410-425, simulation.py 1035 |
| C111 | a simulated share is clipped at shares_bounds: the Jacobian handed to root finders is not that of the clipped contraction | market.py 573-606 |
| C112 | simulation covariances, which are those of mean moments, are added to S without the factor N by which micro covariances are multiplied: standard errors contain them divided by N, so that they hardly account for simulation error (the documentation has the same formula) | problem_results.py 754-756, problem.py 1653, docs/background.rst 202-205 |
| C113 | errors while objectives are evaluated at perturbed parameters are never recorded unless they are raised; if they are punished, gradients there are zeros, and the Hessian can have the wrong sign without any error; if they are reverted, an objective that could not be computed is multiplied in place again for each perturbed evaluation that fails | problem.py 1566-1599, 1322-1364 |
| C115 | extract_diagonals and extract_diagonal_means reject stacked choice probabilities, which their documentation lists, unless the largest numbers of agents and products are equal | economy_results.py 73-80, 430-499 |
| C117 | integration weights of candidate agents are ignored in importance sampling, also if candidates are by default the problem's own agents or come from a rule with unequal weights (the documentation says so only for weights in agent_data) | problem_results.py 1742-1751, 1810-1827 |
| C119 | safe scaling fails in double precision: utilities are scaled down by the highest one of all products, also of products that are eliminated or unavailable to the agent, so the probabilities of the others are 0 / 0 = NaN instead of, say, one half; the same happens if the outside option is eliminated and all utilities are low. With several nesting parameters, scale_weights overflows: parameters of 127/128 and zero and utilities of only 12 and zero give inf * 0 = NaN with the default fp_type | market.py 405-437, 413-419, 453 |
| C122 | with log costs and expected prices that are given or fitted, the Jacobian of omega divides by costs that were drawn instead of prices minus markups of the realization, so it is not the derivative of the omega that the problem recovers from these data | economy_results_market.py 48-103; problem_results.py 1566-1625 |
| C123 | constant_costs has no effect in compute_optimal_instruments, although its documentation says that costs adjust if shares are in X3: with shares in X3, prices are fitted, and iteration is ignored without being validated | problem_results.py 1469-1490, 1592 |
| C125 | with add_exogenous=False and instruments into which fixed effects are not absorbed, expected prices do not have the averages of prices within fixed effects | problem_results.py 1478-1487 |
| C135 | run_lm_test on results of a problem in which parameters are fixed uses Jacobians with respect to the remaining parameters only, whose first-order conditions hold, so the statistic is zero whatever the data; the restrictions are tested only if restricted parameters are kept in theta and evaluated without being optimized over | problem_results.py 629-706, 1050-1051 |
| C136 | a missing value of a standard demographic is not an error, although Agents means to reject NaNs: Patsy's error about it is taken to mean that demographics are product-specific, the second attempt ignores missing values, and the check for NaNs and infinities applies to two-dimensional demographics only | primitives.py 343-348, 586-603 |
| C141 | options of Integration that do not exist, or that the chosen specification does not use, are accepted and ignored, so a misspelled seed gives irreproducible nodes without any message | configurations/integration.py 102-152 |
| C141 | Optimization documents that keep_feasible is True by default, but does not pass it to SciPy, whose default is False | configurations/optimization.py 160-255, 548-565 |
| C141 | options of 'simple' and 'squarem' that do not exist are accepted when configuring and make every solve fail with a TypeError; tolerances that are NaN pass the validation and are never met | configurations/iteration.py 146-251, 369-414 |
| C144 | compute_prices describes its result as equilibrium prices, but with random coefficients on prices a fixed point (which is reported as converged) can be prices from which a firm wants to deviate, even if second order conditions, which only Simulation.replace_endogenous reports, hold | markets/market.py 736-797 |
| C145 | survey weights that are NaN or infinite pass the check that they are not negative, and make micro moments NaN | markets/market.py 1538-1542 |
| C147 | with one product in each market, results such as those of compute_shares are in the order of sorted market IDs and not of rows, so that renaming markets moves results to other rows | economy_results.py 1250-1276 |
| C155 | theta_labels can contain a label twice, for example when coefficients on the same variable in X1 and X3 are both in theta, and label a rho that all groups share with the ID of the first group | parameters.py 647-657 |
| C156 | With error_behavior='revert' and error_punishment other than 1, reverting multiplies in place the array that also holds the smallest objective of the display, so that an improvement can be displayed although the objective is greater than an earlier one. | problem.py 897, 1529-1552, 2429 |
| C158 | With constant_costs=False and shares in X3, replace_endogenous with Iteration('return') and no prices sets prices to costs at the shares of the data, but returns costs at the simulated shares, so that prices are not equal to costs although the documentation describes this as perfect competition. | simulation.py 684-686, 747-761, 798-810; simulation_market.py 40-46 |
| C160 | compute_hhi returns zero for data that have ownership matrices but no firm IDs: firm IDs are an array without columns and no product matches. Passing firm IDs that are already in the data is not the same as leaving them out if data also have ownership matrices, which are then discarded. With ownership matrices that are not symmetric, compute_prices does not keep observed prices although costs are computed from them. | economy_results_market.py 225-235, 300-330; market.py 171-181, 736-750 |
| C161 | Level one of each quadrature rule has a single node at zero. Integration with it is accepted, and random coefficients then have no effect whatever sigma is. | integration.py 354-778 |
| C162 | Consumer surplus is proportional to epsilon_scale: with the small scales that are documented as approximating pure characteristics models it goes to zero instead of to the value of the best option. It also changes when mean utilities, tastes and epsilon_scale are multiplied by the same number, which changes nothing else. | economy_results_market.py 417-461 |
| C163 | Rows of the Jacobian of omega are set to zero for clipped costs in all columns, also in those of gamma, although omega = f(clipped cost) - X3 gamma moves with gamma. Gradients are wrong when costs are clipped and parameters in gamma are not concentrated out. | problem_market.py 183 |
| C163 | shares_bounds are not compared with observed shares. With an observed share outside of them the contraction has no fixed point and never converges. | market.py 547-606 |
| C163 | NaN in arrays given as bounds is overwritten in the user's arrays; if one array is given for both, both bounds become minus infinity. | economy.py 367-369 |
| C165 | utility_reduction is the highest utility of all products, also of those that are eliminated or not available. If utilities of what remains are lower by more than about 745, everything underflows and surplus is minus infinity. With several nesting parameters this happens without removing products: utilities are divided by 1 - rho before taking the maximum, and scale_weights underflow for groups with a parameter above the smallest. | economy_results_market.py 422-454 |
| C166 | With nesting, utilities are divided by 1 - rho before the highest of all products is subtracted, so inclusive sums of groups that are worse than the best by more than about 745 (1 - rho) underflow. Weighted inclusive values would not: these groups can have large shares. Their probabilities are computed as exactly zero without any error. With the default upper bound of 0.99 on rho this happens for utilities that are lower by 7.46, at which exact shares can be as large as 0.0006; reducing utilities by the highest of each group would avoid it. | market.py 400-454 |
| C167 | SimulationResults only displays finite profit gradient norms, and only eigenvalues of firms for which at least one is finite.  A firm whose gradient contains a NaN does not show up at all, so a displayed norm close to zero does not mean that first order conditions were verified for all firms.  If no firm's gradient is finite, the displayed norm is negative infinity. |
| C170 | eliminate_product_ids: IDs that no product has are ignored silently, and a string eliminates every product whose ID is part of it (there is a warning) or raises a TypeError with numeric IDs; product_ids_index=True is accepted; extract_size takes the number of fields for the number of rows if the first field is a number (economy_results.py 1136-1151, economy.py 289-297, basics.py 256-276) |

Seen while reading and not formalised: an unscrambled Halton sequence with discard=0 starts at 0, whose normal
node is minus infinity; error_punishment=0 is accepted; nodes are placed in columns of sigma that are not zero
only if the number of node columns differs from K2 (market.py 108-110).
EvaluationEnvironment.eval normalises strings in a copy of the data that it then does not use (formulation.py 373-399).
If an agent has no available product, eliminating the outside option gives probabilities that are not numbers (market.py 1784-1795).
second_choice_indices are ignored without a warning if the dataset has no second choices (economy_results_market.py 566).
A weighting matrix that links micro moments with others (C67) is what updating gives with resample_agent_data: S += simulation_covariances is not block diagonal (problem_results.py 756), so gradients of later steps are not derivatives of their objectives.
With add_exogenous=False and instruments into which fixed effects are not absorbed, which the documentation asks the user to do but nothing checks, gradients are not derivatives of the objective (C107_unabsorbed_instruments).
Setting only options.psd_rtol to infinity rejects positive semidefinite matrices that contain a zero, since infinity times zero is NaN; the documentation asks to set both tolerances (C101_infinite_tolerances).

## 6. Assumptions printed for each theorem

Axioms are only those of the standard library's real numbers (constructive Dedekind reals made classical),
functional extensionality and excluded middle, which come with `Coq.Reals`:

* A1 `ClassicalDedekindReals.sig_forall_dec`
* A2 `ClassicalDedekindReals.sig_not_dec`
* A3 `FunctionalExtensionality.functional_extensionality_dep`
* A4 `Classical_Prop.classic`

| Printed | Theorems |
|---|---|
| closed under the global context | C07_accepted_types, C07_always_linear, C07_fp_type_refuted, C07_linear_honoured, C09_return_keeps_values, C100_culprit_refuted, C100_detects, C100_distances, C100_one_zero_refuted, C100_single_row_refuted, C101_accepts, C101_correlation, C101_exact, C101_infinite_tolerances, C101_within, C102_complete, C102_exact, C102_markups, C102_markups_refuted, C102_sound, C102_taken, C103_explosive, C103_none, C103_stationary, C103_unit_root_refuted, C104_exactly_identified, C104_separate, C104_two_stage, C105_initial_update, C105_one_step, C105_refuted, C105_two_steps, C106_curvature, C106_second_order, C106_zero, C107_fixed_effects, C107_gmm, C107_gradient, C107_groups, C107_one_way, C107_residuals, C107_slope_unique, C107_two_stage, C107_two_way, C107_unabsorbed_instruments, C112_covariance_matrix, C112_failures, C112_micro, C112_pairs, C112_resampling, C112_scale, C112_scale_refuted, C112_unbiased, C112_zero, C122_draws, C122_price_sources, C122_refusals, C124_refusals, C125_fitted_prices, C125_fixed_effects, C125_unabsorbed_refuted, C133_initial_weights, C133_objective, C133_parameter_covariances, C133_parameters, C133_residuals, C133_significance, C133_updated_weights, C134_additional_moments, C134_exactly_identified, C134_optimal_instruments, C134_optimal_weights, C135_fixed_parameters, C135_lm_of_restricted_results_refuted, C135_tests_agree, C136_errors, C136_infinite, C136_missing_values, C136_product_specific, C136_product_specific_built, C136_standard, C141_keep_feasible_refuted, C141_knitro_used, C141_optimization_accepted, C141_optimization_used, C142_categorical, C142_collinear, C142_ids, C142_lengths, C142_nested, C143_market_effects, C145_shapes, C145_values_accepted, C147_clusters, C150_estimates, C151_estimates, C151_initial_weights, C151_moment_covariances, C151_moment_jacobians, C151_objective, C151_standard_errors, C152_error, C152_gap, C152_header, C152_progress, C152_read, C152_rectangle, C15_nonconvergence_refuted, C15_realizations_report, C170_boolean_refuted, C170_draws, C170_index, C170_names, C170_size, C170_size_refuted, C172_dimensions, C172_formulations, C19_market_rows, C19_product_rows, C19_product_rows_refuted, C19_single_market, C20_market_indices_disjoint, C20_objective_evaluation, C20_stacked_outputs, C22_get_indices, C29_first_order, C29_jacobian, C29_residuals, C30_centering, C30_one_cluster, C30_optimal, C30_own_clusters, C30_parameters, C30_symmetric, C30_weights, C31_exact_partial, C31_refuted, C31_report, C31_reported, C31_uncaught, C32_vech, C33_balanced, C33_divisible, C33_refuted, C33_rejected, C37_no_overwriting, C37_read_back, C37_read_back_refuted, C39_bases, C41_sequences, C43_rows, C44_demographics_partial, C44_loaded, C44_refuted, C44_sorted_partial, C46_agents, C48_exit_drops_pool, C48_nested_refuted, C48_one_process, C48_rejected, C48_serial_after_program, C49_empirical_joint, C54_wald, C56_exact_name, C56_stacked, C56_titled_update_rejected, C56_update, C70_gamma_follows_beta, C70_matrices, C71_jacobian, C71_refuted, C71_theta_partial, C72_refuted, C72_sensitivity, C73_columns, C73_fixed_effects, C76_duplicates, C84_marker_validation, C84_single_variable_refuted, C85_interpreted_names, C85_tokens, C90_accepted_shapes, C90_diagonals, C90_round_trip, C90_round_trip_refuted, C90_selected_markets, C90_single_diagonal, C90_single_round_trip, C91_market_rows, C91_product_rows, C91_product_rows_refuted, C91_round_trip, C91_single_market, C97_accepts, C97_moment, C97_parts, C98_accepted, C98_negative_refuted, C98_nonnegative, C98_simulated, C98_simulated_second |
| A1 | C10_scipy_nonfinite, C131_equivalence, C136_missing_values_refuted, C147_ownership, C167_condition, C22_expand, C32_conversions, C34_ownership, C50_columns, C50_cumulative_converged, C50_cumulative_fixed_points, C50_steps, C82_stored_names, C83_cache_transparent, C90_built_ownership, C97_evaluates |
| A3 | C137_agent_variables, C142_formulas |
| A1, A3 | C09_accepted_options, C09_simple_budget, C09_simple_convergence_truthful, C09_simple_stops_first_time, C10_simple_nonfinite, C110_demand, C110_exogenous, C110_own_data, C110_replaced_refuted, C110_supply, C113_central, C113_errors, C113_jacobians, C113_objective, C113_objective_refuted, C113_quadratic, C113_raised, C113_reported_refuted, C113_symmetric, C116_profits, C117_quadrature_candidates, C117_rule_of_thumb, C117_shares, C117_success, C117_unbiased, C118_nested_probabilities, C118_safe_probabilities, C118_unsafe_moderate, C119_highest_remains, C11_accepted_options, C11_step_factor_refuted, C120_contraction_finite, C120_nested_contraction_finite, C120_nested_simple_iteration, C120_simple_iteration, C130_cross_products, C130_default_norm, C131_representations, C132_linear_prices, C132_markups_profits, C136_other_indices, C136_same_for_all, C136_utilities, C137_errors, C137_product_variables, C137_sets, C137_shares, C141_custom_methods, C141_dictionaries, C141_integration_accepted, C141_integration_options, C141_integration_sizes, C141_integration_used, C141_jacobians, C141_misspelled_refuted, C141_return_options, C141_scipy_iteration, C141_simple_accepted, C141_squarem_accepted, C145_constant, C145_linear, C145_numbers_refuted, C145_other_markets, C145_population_jacobians, C145_populations, C145_range, C145_units, C145_weights_accepted, C147_blp_instruments, C147_groups, C149_rules, C153_durations, C153_progress, C155_distinct, C155_distinct_refuted, C155_order, C156_improvements, C156_reverted_refuted, C156_total, C158_exogenous, C160_hhi, C161_errors, C161_level_one, C161_monomials, C161_odd, C161_package, C161_polynomials, C161_tastes, C163_accepted, C163_arguments, C163_arguments_refuted, C163_costs, C163_nonpositive_costs, C163_same_array_refuted, C165_all_remain, C165_finite, C165_market_finite, C165_nested_finite, C167_bootstrap, C167_cumulative, C167_hessian, C16_rows_sum_to_one, C170_singular, C171_scale, C171_skewness, C171_squared, C171_variance, C173_norm, C173_total, C18_documented_formula_refuted, C18_hhi_bounds, C18_hhi_merger, C18_hhi_of_inside_shares, C18_hhi_order, C21_seed_refuted, C22_group_statistics, C23_compress_expand, C23_distinct, C23_expand_compress, C23_fixed, C23_positions, C23_values, C24_equal_bounds, C24_not_nan, C24_partition, C24_rejected, C24_specified, C24_unbounded, C24_unfixed, C24_within, C24_zero, C25_finite, C25_finite_derivatives, C25_finite_objective, C25_gradient_free_refuted, C25_recorded, C25_reverted, C26_error_behavior, C26_records_kept, C26_records_kept_refuted, C27_first, C27_history_independent, C27_last, C28_asymmetric_refuted, C28_gradient, C28_objective, C32_commutation, C32_delta_method, C32_duplication, C32_elimination, C32_extracted, C32_jacobian, C34_default, C35_instruments, C35_reordered, C38_blocks, C38_halton, C38_refuted, C39_points, C40_strata, C41_distinct, C41_odd, C41_product, C41_sparse, C42_answers, C42_counts, C42_knitro, C42_overwritten, C42_values, C43_accepted, C43_refuted, C43_whole_partial, C45_others_partial, C45_refuted_order, C45_refuted_others, C46_chunks, C46_denominators_partial, C46_refuted, C46_values, C47_joint, C47_ratios, C49_empirical_draws, C49_normal_demand_draws, C49_normal_demand_draws_iff, C49_normal_demand_draws_refuted, C49_normal_joint_draws, C50_cumulative_sums, C51_draws_and_weights, C51_raises, C52_refuted, C52_started_partial, C52_stationary_partial, C53_replaced, C54_distance, C54_hansen, C54_lagrange_multiplier, C55_first_differences, C55_second_differences, C57_projected_gradient, C64_omega_by_gamma, C67_any_weights_refuted, C67_concentrated_gradient, C67_converted, C68_demand_instruments, C68_expectations, C68_joint_instruments, C69_fixed, C69_within, C70_gamma_refuted, C70_vectors, C73_differences, C73_errors, C73_gradient_partial, C73_recovers, C73_refuted, C74_moments, C74_product_weights, C74_structure, C75_shares, C78_jacobian_partial, C78_refuted, C78_tangent, C79_covariance, C79_semidefinite, C79_symmetric, C90_diagonal_means, C95_law, C95_mean, C95_rejects, C96_all_markets, C96_any_order, C96_same_seed_refuted, C97_default, C99_information, C99_mean_zero |
| A1, A2, A3 | C10_squarem_nonfinite, C11_squarem_budget, C11_squarem_convergence_truthful, C11_squarem_step_bounds, C132_characteristics, C141_nan_tolerances, C141_simple_used, C141_squarem_used, C141_unknown_iteration_options, C147_differentiation_instruments, C171_displayed, C171_equal, C171_order, C171_range, C36_documented_partial, C36_local_products, C36_refuted, C47_documented, C51_effective_draws, C77_parts_partial, C77_refuted_negative, C79_documented_partial, C89_squarem_exact_on_uniform_rate, C89_squarem_trajectory |
| A1, A2, A4, A3 | C01_probabilities_are_logit, C01_probabilities_proper, C02_safe_rescaling_exact, C03_closed_form_inverts, C04_clipping_reported, C04_fixed_point_iff_shares_match, C04_shares_are_averaged_probabilities, C05_delta_unique, C06_contraction_monotone, C06_contraction_nonexpansive, C06_small_epsilon_refuted, C07_nonlinear_equivalent, C07_safe_nonlinear_nested_refuted, C08_elimination_is_absence, C08_no_outside_sums_to_one, C08_remaining_gain, C108_accepted, C108_demand, C108_exogenous, C108_nothing_added, C108_supply, C109_demand, C109_number, C109_supply, C109_supply_refuted, C111_clipped_refuted, C111_conditionals, C111_delta, C111_exponentiated_delta, C111_prices, C111_prices_are_contraction, C113_accuracy, C113_jacobian_accuracy, C114_autocorrelation_gradient, C114_covariance_gradient, C114_gradient, C114_innovations_gradient, C114_objectives_agree, C115_diagonals_partial, C115_diagonals_refuted, C115_one_market, C115_probabilities, C115_shares, C116_cooperation_lowers_costs, C116_elasticity_bound, C116_mergers_raise_prices, C116_positive_margins, C116_revenue_equation, C116_single_product, C118_unsafe_can_fail, C119_eliminated_outside_refuted, C119_eliminated_product_refuted, C119_several_parameters_refuted, C120_without_bound_can_fail, C121_market_share_accuracy, C121_probability_accuracy, C122_averages, C122_data, C122_demand_jacobian, C122_equilibrium_costs, C122_given_prices_refuted, C122_prices_used, C122_shares, C122_structural_errors, C122_supply_jacobian, C123_constant_costs_ignored, C123_costs_adjust_refuted, C123_without_shares, C124_constant_costs_differ, C124_demand, C124_prices, C124_supply, C126_mean_utilities_accurate, C126_shares_reproduced, C127_geometric_rate, C127_geometric_rate_nested, C127_geometric_rate_scaled, C127_nested_rate_below_one, C127_rate_below_one, C127_rounded_convergence, C128_iterates_converge, C128_iterates_rise, C128_one_equilibrium, C128_simple_routine_accurate, C128_simple_routine_converges, C129_consumers_lose_rivals_gain, C129_merger_simulation, C129_prices_rise, C12_approximate_prices_roundtrip, C12_costs_markup_equation, C12_costs_rationalise_prices, C130_consumer_surplus, C130_consumer_surplus_needs_common_derivatives, C130_costs, C130_equilibrium_prices, C130_long_run_diversion, C130_mean_utilities, C130_mean_utilities_squarem, C130_mean_utility_steps, C130_objective, C130_outputs, C130_probabilities, C131_mean_utilities, C131_outputs, C132_consumer_surplus, C132_costs, C132_equilibrium_prices, C132_shares_elasticities, C138_consumers, C138_everyone, C138_own_firm, C138_profits, C138_rivals, C139_approximate_prices_rise, C139_cooperation_lowers_costs, C139_costs_below_prices, C139_inelastic, C139_inverse_elasticities, C13_asymmetric_ownership_refuted, C13_diagonal_ownership_refuted, C13_fixed_point_iff_bertrand, C13_termination_is_profit_gradient, C140_law_of_demand, C140_many_prices, C140_one_price, C140_surplus_bounds, C140_surplus_falls, C143_heterogeneity, C143_logit_size, C143_monotone, C143_smaller_market, C144_heterogeneity_refuted, C144_mergers_pay, C144_nash_is_stationary, C144_one_nash_equilibrium, C144_prices_maximize_profits, C144_profits, C146_derivatives, C146_identical_products, C146_mean_utilities, C146_prices, C146_probabilities, C146_shares, C146_welfare, C147_one_market, C147_probabilities_partial, C147_probabilities_refuted, C148_closed_form, C148_nests_delta, C148_nests_matter, C148_nests_outputs, C148_nests_probabilities, C148_scale, C148_zero_tastes, C149_draws, C149_mean_utilities, C149_outputs, C14_jacobian_is_derivative, C150_counterfactuals, C150_lognormal, C150_mean_utilities, C153_numbers, C153_order, C153_special, C153_standard_errors, C153_widths, C154_errors, C154_estimates, C154_phi, C154_read, C154_readable, C154_theta, C154_values, C154_vectors, C155_all_groups_refuted, C156_cells, C156_errors, C156_rows, C157_derivatives, C157_diversion, C157_elasticities, C157_equilibrium, C157_long_run, C157_markups, C157_outside, C157_plain_elasticities, C157_plain_markups, C157_surplus, C157_symmetric, C158_converged, C158_costs, C158_errors, C158_keep_prices, C158_norms, C158_perfect_competition, C158_perfect_competition_refuted, C158_refused, C158_rows, C159_consumers, C159_costs, C159_exactly_one, C159_fixed_point, C159_markups, C159_mergers, C159_savings, C160_approximate, C160_delta, C160_given, C160_hhi_refuted, C160_owners, C160_owners_refuted, C160_prices, C160_prices_refuted, C160_shares, C160_values, C162_large_scales, C162_mean_utilities, C162_normalisation, C162_probabilities, C162_shares, C162_surplus, C162_surplus_limit_refuted, C162_surplus_normalisation_refuted, C163_fixed_points, C163_gamma, C163_gamma_refuted, C163_jacobian, C163_log_costs, C163_shares_above_bounds, C163_shares_below_bounds, C164_diversion, C164_jacobian, C164_law_of_demand, C164_mean_utilities, C164_prices_from_shares, C164_same_rates_needed, C164_strict, C164_surplus, C164_variation, C165_accurate, C165_eliminated_refuted, C165_several_parameters_refuted, C166_exact, C166_probabilities, C166_surplus, C166_underflow_refuted, C167_eigenvalues, C167_eigenvalues_refuted, C167_lengths, C167_norm, C167_norm_refuted, C167_simulation, C167_summary, C168_costs, C168_merging_firms, C168_other_firms, C168_tax, C169_changes, C169_exact, C169_heterogeneity, C169_nests, C169_surplus, C169_value, C16_definition_refuted, C16_matches_definition, C170_eliminated, C170_more, C170_order, C170_refused, C170_text_refuted, C170_unknown_refuted, C172_micro, C173_rows, C17_delta_derivative_is_probability, C17_derivative_at_given_prices_refuted, C17_elimination_lowers_surplus, C17_epsilon_scale_refuted, C17_price_derivative_is_share, C17_surplus_is_expected_maximum, C45_scores_partial, C58_long_run_meaning, C58_long_run_nonnegative, C58_long_run_rows_sum_to_one, C59_delta_elasticities_exact, C59_delta_elasticities_refuted, C59_elasticities_exact, C60_passthrough_common_coefficient, C60_passthrough_refuted, C60_passthrough_single_product_firms, C61_hessian_is_second_derivative, C62_conditionals_by_xi, C62_contraction_jacobian, C62_contraction_jacobian_refuted, C62_probabilities_by_xi, C62_shares_by_xi, C63_beta_tangents, C63_rho_tangents, C63_sigma_pi_tangents, C64_eta_by_beta, C64_eta_by_rho, C64_eta_by_theta, C64_matching_unique, C64_omega_by_theta, C64_rho, C64_rho_given_derivatives, C64_total_tangents, C64_xi_by_beta, C64_xi_by_gamma, C64_xi_by_theta, C65_profit_hessian, C65_profit_jacobian, C66_aggregate_elasticity_limit, C77_refuted_groups, C80_delta_exists, C80_outside_share_necessary, C81_iterates_converge, C81_simple_routine_accurate, C81_simple_routine_converges, C81_small_epsilon_refuted, C82_column_is_design, C82_override_is_new_data, C82_shared_variable_refuted, C83_derivatives, C83_expression_derivatives, C86_costs_unique, C86_markups_nonsingular, C86_substitutes, C87_constant_costs_refuted, C87_omega_recovered, C87_xi_recovered, C88_profit_gradients, C88_profit_hessians, C88_zero_gradients_iff_fixed, C92_nesting_tangents, C92_taste_tangents, C93_distribution, C93_population, C93_product_refuted, C94_cells, C94_nesting_jacobian, C94_taste_jacobian, C99_log_likelihood |

## 7. Mutation testing

`seeded/LOG.jsonl` has one line for every wrong program tried: the definition of the model that was edited in
a scratch copy, the edit, the claim that it breaks, the property theorems that failed (their own proof, or a
lemma that they depend on, could not be replayed), and theorems that were tightened as a consequence. Each
run recompiled every file that depends on the edited one, with failing proofs replaced by an admission so
that all failures are found and not just the first.
