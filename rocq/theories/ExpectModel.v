(** Model of the data at which Jacobians are averaged for optimal instruments, and of the data that are bootstrapped, in one
    market.

    Source: /repo/pyblp/results/problem_results.py 1175-1290 and 1423-1655, markets/economy_results_market.py 17-103,
    markets/market.py 80-163, 242-298 and 800-860.  Definitions only. *)
From Coq Require Import Reals List Bool Arith ZArith.
From Verif Require Import Base DemandModel SupplyModel DerivModel GradModel EndoModel FltModel.
Import ListNotations.
Local Open Scope R_scope.

(* ---------- arguments ---------- *)

(** [method] and [draws]; [None] is a ValueError.  problem_results.py 1439-1467.  (A Boolean is an int for Python.) *)
Inductive method := Approximate | Normal | Empirical | OtherMethod.
Inductive int_argument := AnInt (z : Z) | NotAnInt.
Definition positive_int (draws : int_argument) : option nat :=
  match draws with
  | AnInt z => if Z.ltb z 1 then None else Some (Z.to_nat z)
  | NotAnInt => None
  end.
Definition number_of_draws (m : method) (draws : int_argument) : option nat :=
  match m with
  | OtherMethod => None
  | Approximate => positive_int (AnInt 1)
  | _ => positive_int draws
  end.

(** Where prices come from.  [expected] is the argument of the method, with whether it has one element for each product; [None] is
    an exception.  problem_results.py 1469-1490. *)
Inductive iteration_argument := NoIteration | AnIteration (analytic_jacobian : bool) | NotIteration.
Inductive price_source := GivenPrices (p : nat -> R) | EquilibriumPrices | FittedPrices.
Definition shares_in (S : supply) : bool := existsb (fun k => uses (sX3 S k)) (seq 0 (sK3 S)).
Definition validated (it : iteration_argument) (source : price_source) : option price_source :=
  match it with
  | NoIteration | AnIteration false => Some source
  | _ => None
  end.
Definition price_source_of (expected : option (bool * (nat -> R))) (S : supply) (it : iteration_argument) : option price_source :=
  match expected with
  | Some (conformable, p) => if conformable then Some (GivenPrices p) else None
  | None =>
      if (Nat.ltb 0 (sK3 S) && negb (shares_in S))%bool then validated it EquilibriumPrices else Some FittedPrices
  end.
(** The same for [bootstrap].  problem_results.py 1187-1196, 1251.  [observed] are prices in the data. *)
Definition bootstrap_source (S : supply) (observed : nat -> R) (it : iteration_argument) : option price_source :=
  if Nat.eqb (sK3 S) 0 then Some (GivenPrices observed) else validated it EquilibriumPrices.

(* ---------- one realization in one market ---------- *)

Definition exponentiated (S : supply) (tilde : nat -> R) (j : nat) : R :=
  match stype S with LinearCosts => tilde j | LogCosts => exp (tilde j) end.

Definition logged (S : supply) : bool := match stype S with LogCosts => true | LinearCosts => false end.

(** Estimates with errors replaced by draws.  problem_results.py 1566-1570. *)
Definition with_error (estimate error draw : nat -> R) (j : nat) : R := estimate j - error j + draw j.

(** Estimates with linear parameters replaced by draws.  problem_results.py 1236-1250. *)
Definition with_linear (K : nat) (X : nat -> nat -> R) (old new estimate : nat -> R) (j : nat) : R :=
  estimate j + sumn K (fun k => X j k * (new k - old k)).

(** X2 of a market whose prices are overridden.  market.py 138-145. *)
Definition overridden_X2 (e : economy_market) (x : nat -> R) (j k : nat) : R :=
  if uses (fX2 (e_market e) k) then ev (fX2 (e_market e) k) j (x j) else X2_0 (e_market e) j k.
Definition overridden_tastes (e : economy_market) (x : nat -> R) : tastes :=
  let T := e_tastes e in mk_tastes (r_K2 T) (r_D T) (r_types T) (r_nodes T) (r_dem T) (overridden_X2 e x).
(** The market with overridden prices and shares.  Characteristics of linear parameters are evaluated on its data.  market.py 80-163,
    parameters.py 112-139. *)
Definition overridden (e : economy_market) (S : supply) (x shares : nat -> R) : economy_market :=
  let M := e_market e in
  mk_economy_market
    (mk_full_market (fm M) (fI M) (fw M) (fK1 M) (fX1 M) (fbeta M) (fK2 M) (fX2 M) (fcoef M) x (delta0 M) (overridden_X2 e x))
    (overridden_tastes e x) (e_group e)
    (fun j k => ev (fX1 M k) j (x j)) (fun j k => ev (sX3 S k) j (shares j)) shares (e_ownership e).

Section Realization.
  (** What [iteration] does: from a function and starting values, values and whether the routine says it converged. *)
  Variable routine : ((nat -> R) -> nat -> R) -> (nat -> R) -> (nat -> R) * bool.
  Variables (e : economy_market) (S : supply) (v : point).
  (** Mean utilities and (possibly logged) marginal costs before prices change. *)
  Variables (delta tilde : nat -> R).
  Variables (fitted : nat -> R) (source : price_source) (constant_costs : bool).
  Let M := market_of e v delta.

  (** [safely_solve_equilibrium_realization].  economy_results_market.py 17-46. *)
  Definition realized_prices : (nat -> R) * bool :=
    match source with
    | GivenPrices p => (p, true)
    | FittedPrices => (fitted, true)
    | EquilibriumPrices =>
        routine (endogenous_contraction constant_costs M (e_ownership e) S (e_shares e) (exponentiated S tilde)) (var0 (e_market e))
    end.
  Definition realized_delta : nat -> R := update_delta M (fst realized_prices).
  Definition realized_shares : nat -> R := shares_at M (fst realized_prices).

  (** The market in which Jacobians are computed.  problem_results.py 1611-1625. *)
  Definition realized_market : economy_market := overridden e S (fst realized_prices) realized_shares.

  (** [safely_compute_jacobian_realizations].  economy_results_market.py 48-103.  Costs are those that are passed to it. *)
  Variables (solve : nat -> solver) (inverse : nat -> (nat -> nat -> R) -> (nat -> nat -> R) * bool).
  Definition realized_xi_column (p : parameter) : nat -> R := fst (xi_column solve realized_market v realized_delta p).
  Definition realized_omega_column (p : parameter) : nat -> R :=
    match p with
    | Gamma k => omega_by_gamma (fun j => e_X3 realized_market j k)
    | _ => omega_by_theta (logged S) tilde
             (eta_column solve realized_market v realized_delta inverse p)
    end.
End Realization.

(** Invalid elements of Jacobians are replaced by estimates, and this is reported.  problem_results.py 1640-1653. *)
Definition reverted (realized estimated : flt) : flt := if ffin realized then realized else estimated.
Definition reversion_reported (rows columns : nat) (realized : nat -> nat -> flt) : bool :=
  existsb (fun n => existsb (fun p => negb (ffin (realized n p))) (seq 0 columns)) (seq 0 rows).
