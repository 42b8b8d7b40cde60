(** Model of how shares respond to a product variable, of markups, and of equilibrium prices, in a
    single market.

    Source: /repo/pyblp/markets/market.py and /repo/pyblp/markets/economy_results_market.py.
    Definitions only. *)
From Coq Require Import Reals List Bool Arith.
From Verif Require Import Base DemandModel.
Local Open Scope R_scope.

(** A column of X1 or X2: a [ColumnFormulation] (pyblp/configurations/formulation.py) seen as a
    function of the values of the one variable that is being changed, all other data fixed.
    [uses] is [name in formulation.names]; [ev j x] is row j of [evaluate] when the variable is x
    for product j; [dv1] and [dv2] are [evaluate_derivative] of orders 1 and 2.  Symbolic
    differentiation itself (sympy) is not modelled: the theorems assume dv1 and dv2 are derivatives. *)
Record column := mk_column {
  uses : bool;
  ev : nat -> R -> R;
  dv1 : nat -> R -> R;
  dv2 : nat -> R -> R
}.

(** The parts of a [Market] used below.  market.py 66-163.  [coef k j i] is the random coefficient on
    column k of X2 for agent i; it depends on the product j only when demographics are product
    specific (the three-dimensional case of [compute_random_coefficients], 183-210).  [var0] holds
    the observed values of the variable, [delta0] is [self.delta]. *)
Record full_market := mk_full_market {
  fm : market;
  fI : nat;
  fw : nat -> R;
  fK1 : nat;
  fX1 : nat -> column;
  fbeta : nat -> R;
  fK2 : nat;
  fX2 : nat -> column;
  fcoef : nat -> nat -> nat -> R;
  var0 : nat -> R;
  delta0 : nat -> R;
  X2_0 : nat -> nat -> R
}.

(** [compute_mu] with a given X2.  market.py 229-240. *)
Definition compute_mu (M : full_market) (X2 : nat -> nat -> R) (i j : nat) : R :=
  sumn (fK2 M) (fun k => X2 j k * fcoef M k j i).

(** [update_delta_with_variable].  market.py 242-258.  (Returning [self.delta] itself when no column
    uses the variable is the same as adding nothing.) *)
Definition update_delta (M : full_market) (x : nat -> R) (j : nat) : R :=
  delta0 M j + sumn (fK1 M) (fun k =>
    if uses (fX1 M k) then fbeta M k * (ev (fX1 M k) j (x j) - ev (fX1 M k) j (var0 M j)) else 0).

(** [update_mu_with_variable].  market.py 260-274. *)
Definition update_mu (M : full_market) (x : nat -> R) : nat -> nat -> R :=
  compute_mu M (fun j k => if uses (fX2 M k) then ev (fX2 M k) j (x j) else X2_0 M j k).

(** [compute_utility_derivatives] of order 1 or 2 at the values x.  market.py 300-318, 330-347
    ([np.nan_to_num] acts on parameters that have not been estimated yet; here all are numbers). *)
Definition utility_derivatives (M : full_market) (second : bool) (x : nat -> R) (i j : nat) : R :=
  let d := fun (c : column) => if uses c then (if second then dv2 c else dv1 c) j (x j) else 0 in
  let u := sumn (fK1 M) (fun k => d (fX1 M k) * fbeta M k)
           + sumn (fK2 M) (fun k => d (fX2 M k) * fcoef M k j i) in
  if Req_EM_T (eps_scale (fm M)) 1 then u else u / eps_scale (fm M).

(** Agents of this market facing given mu. *)
Definition agents_with (M : full_market) (mu : nat -> nat -> R) : agents := mk_agents (fI M) (fw M) mu.

(** [compute_probabilities(delta, mu)] (safe by default): probabilities and conditionals, agent first.
    market.py 360-456. *)
Definition probs (m : market) (delta : nat -> R) (mu : nat -> nat -> R) (i j : nat) : R :=
  fst (probabilities_linear m full_choice true delta (mu i)) j.
Definition conds (m : market) (delta : nat -> R) (mu : nat -> nat -> R) (i j : nat) : R :=
  match snd (probabilities_linear m full_choice true delta (mu i)) with
  | Some c => c j
  | None => 0
  end.

(** Shares at changed values of the variable: [compute_shares], market.py 894-902; also
    [safely_compute_shares], economy_results_market.py 347-355. *)
Definition shares_at (M : full_market) (x : nat -> R) (j : nat) : R :=
  sumn (fI M) (fun i => probs (fm M) (update_delta M x) (update_mu M x) i j * fw M i).

(** [get_membership_matrix].  market.py 165-169. *)
Definition membership (m : market) (j k : nat) : R := if Nat.eqb (gid m j) (gid m k) then 1 else 0.

(** [compute_capital_lamda_gamma]: the diagonal of capital lambda, and capital gamma.
    market.py 668-692.  P, C and U are indexed agent first. *)
Definition capital_lamda (m : market) (I : nat) (w : nat -> R) (P U : nat -> nat -> R) (j : nat) : R :=
  let d := sumn I (fun i => P i j * U i j * w i) in
  if Nat.eqb (mH m) 0 then d else d / (1 - rho m j).

Definition capital_gamma (m : market) (I : nat) (w : nat -> R) (P C U : nat -> nat -> R) (j k : nat) : R :=
  let g := sumn I (fun i => P i j * (w i * (P i k * U i k))) in
  if Nat.eqb (mH m) 0 then g
  else g + rho m j / (1 - rho m j) * membership m j k
           * sumn I (fun i => C i j * (w i * (P i k * U i k))).

(** [compute_shares_by_variable_jacobian].  market.py 1184-1201. *)
Definition jacobian_of (m : market) (I : nat) (w : nat -> R) (P C U : nat -> nat -> R) (j k : nat) : R :=
  (if Nat.eqb j k then capital_lamda m I w P U j else 0) - capital_gamma m I w P C U j k.

(** The same, with probabilities and utility derivatives at the values x of the variable.
    [safely_compute_demand_jacobian], economy_results_market.py 151-157, at x = var0. *)
Definition lamda_at (M : full_market) (x : nat -> R) : nat -> R :=
  capital_lamda (fm M) (fI M) (fw M)
    (probs (fm M) (update_delta M x) (update_mu M x)) (utility_derivatives M false x).
Definition gamma_at (M : full_market) (x : nat -> R) : nat -> nat -> R :=
  capital_gamma (fm M) (fI M) (fw M)
    (probs (fm M) (update_delta M x) (update_mu M x)) (conds (fm M) (update_delta M x) (update_mu M x))
    (utility_derivatives M false x).
Definition shares_jacobian (M : full_market) (x : nat -> R) : nat -> nat -> R :=
  jacobian_of (fm M) (fI M) (fw M)
    (probs (fm M) (update_delta M x) (update_mu M x)) (conds (fm M) (update_delta M x) (update_mu M x))
    (utility_derivatives M false x).

(** [safely_compute_elasticities].  economy_results_market.py 137-149.  [observed] are
    [self.products.shares].  With name=None, the derivatives are ones and the variable is delta;
    probabilities are always those at the observed data ([self.delta], [self.mu]). *)
Definition elasticities (M : full_market) (observed : nat -> R) (j k : nat) : R :=
  shares_jacobian M (var0 M) j k * var0 M k / observed j.
Definition delta_elasticities (m : market) (a : agents) (delta observed : nat -> R) (j k : nat) : R :=
  jacobian_of m (aI a) (aw a) (probs m delta (amu a)) (conds m delta (amu a)) (fun _ _ => 1) j k
  * delta k / observed j.

(** [safely_compute_diversion_ratios] from the Jacobian.  economy_results_market.py 169-182:
    the diagonal is replaced by minus the row sum, everything is negated and divided by the
    original diagonal entry of the row. *)
Definition diversion_ratios (J : nat) (jac : nat -> nat -> R) (j k : nat) : R :=
  - (if Nat.eqb j k then - sumn J (jac j) else jac j k) / jac j j.

(** The value of [approximately_solve] and [approximately_invert] (utilities/algebra.py): a result
    and whether it had to be replaced by an approximation.  The linear algebra is a parameter. *)
Definition solver := (nat -> nat -> R) -> (nat -> R) -> (nat -> R) * bool.

(** [compute_eta]: capital delta and the markup, with whether an
    IntraFirmJacobianInversionError is reported.  market.py 694-734. *)
Definition capital_delta (M : full_market) (ownership : nat -> nat -> R) (x : nat -> R) (j k : nat) : R :=
  (gamma_at M x k j - (if Nat.eqb k j then lamda_at M x k else 0)) * ownership j k.
Definition compute_eta (solve : solver) (M : full_market) (ownership : nat -> nat -> R)
    (observed : nat -> R) : (nat -> R) * bool :=
  solve (capital_delta M ownership (var0 M)) observed.

(** [safely_compute_costs].  economy_results_market.py 224-237.  var0 holds prices. *)
Definition compute_costs (solve : solver) (M : full_market) (ownership : nat -> nat -> R)
    (observed : nat -> R) : (nat -> R) * bool :=
  let (eta, bad) := compute_eta solve M ownership observed in (fun j => var0 M j - eta j, bad).

(** [safely_compute_approximate_prices].  economy_results_market.py 303-323. *)
Definition compute_approximate_prices (solve : solver) (M : full_market)
    (old_ownership new_ownership : nat -> nat -> R) (observed : nat -> R) (costs : option (nat -> R))
    : (nat -> R) * bool :=
  let (c, bad1) := match costs with
                   | Some c => (c, false)
                   | None => compute_costs solve M old_ownership observed
                   end in
  let (eta, bad2) := compute_eta solve M new_ownership observed in
  (fun j => c j + eta j, orb bad1 bad2).

(** The contraction in [compute_equilibrium_prices], for costs that do not depend on shares, and its
    weights.  market.py 813-853.  The reciprocal of a zero lambda is infinite and is replaced. *)
Definition lamda_inv (l : R) : R := if Req_EM_T l 0 then 1 / (/ 10 ^ 300) else 1 / l.
Definition zeta (M : full_market) (ownership : nat -> nat -> R) (costs x : nat -> R) (j : nat) : R :=
  lamda_inv (lamda_at M x j) * sumn (mJ (fm M)) (fun k => ownership k j * gamma_at M x k j * (x k - costs k))
  - lamda_inv (lamda_at M x j) * shares_at M x j.
Definition price_contraction (M : full_market) (ownership : nat -> nat -> R) (costs x : nat -> R)
    (j : nat) : R := costs j + zeta M ownership costs x j.
Definition price_weights (M : full_market) (x : nat -> R) (j : nat) : R := Rabs (lamda_at M x j).

(** [SolverStats] (utilities/basics.py 468-479) has no __bool__ or __len__, so Python treats every
    instance as true. *)
Record solver_stats := mk_stats { st_converged : bool; st_iterations : nat; st_evaluations : nat }.
Definition stats_truth (s : solver_stats) : bool := true.

Inductive price_error := EquilibriumPricesConvergenceError | IntraFirmJacobianInversionError.

(** [safely_compute_prices], from what [compute_equilibrium_prices] returned.
    economy_results_market.py 325-345: [if not converged] tests the SolverStats object. *)
Definition compute_prices_errors (costs_bad : bool) (stats : solver_stats) : list price_error :=
  (if costs_bad then cons IntraFirmJacobianInversionError nil else nil)
  ++ (if negb (stats_truth stats) then cons EquilibriumPricesConvergenceError nil else nil).

(** [safely_solve_equilibrium_realization] (used by bootstrap and optimal instruments):
    economy_results_market.py 17-46 tests [stats.converged]. *)
Definition realization_errors (stats : solver_stats) : list price_error :=
  if negb (st_converged stats) then cons EquilibriumPricesConvergenceError nil else nil.

(** [compute_profit_jacobian].  market.py 1291-1309. *)
Definition profit_jacobian (M : full_market) (costs x : nat -> R) (j k : nat) : R :=
  (if Nat.eqb j k then shares_at M x j else 0) + (x j - costs j) * shares_jacobian M x j k.
