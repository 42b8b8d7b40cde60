(** Model of [Simulation.replace_endogenous] for all markets: which arguments are refused, where iteration starts, how results of markets are
    put together, and when errors are raised.  Source: /repo/pyblp/economies/simulation.py, markets/simulation_market.py.  Definitions only.

    Arrays of N products are lists (arguments) or functions of rows (results).  Numbers are exact; numerical errors that NumPy would detect in
    a market are what oracles say.  Fixed point routines are functions of the number of products, the function to iterate, and starting values; they
    also say which numerical errors (with their messages) were detected. *)
From Coq Require Import Reals ZArith String List Bool Arith.
From Verif Require Import Base DemandModel SupplyModel EndoModel SchedModel.
Import ListNotations.
Local Open Scope nat_scope.

(** [SolverStats].  basics.py 38-63. *)
Record solver_stats := mk_stats { converged : bool; iterations : nat; evaluations : nat }.
(** Errors of markets.  exceptions.py. *)
Inductive market_error := PricesNumerical (messages : list nat) | PricesConvergence | SharesNumerical (messages : list nat)
  | DeltaNumerical (messages : list nat) | DeltaConvergence | ClippedShares | CostsNumerical (messages : list nat) | InvertedMarkups | NonpositiveCosts.
Definition routine := nat -> ((nat -> R) -> nat -> R) -> (nat -> R) -> (nat -> R) * solver_stats * list (list nat).
(** [return_iterator] with [Iteration._iterate].  iteration.py 302-305, 240-300. *)
Definition return_routine : routine := fun _ _ start => (start, mk_stats true 0 0, []).

(** What a simulation knows: market IDs of rows, their stable argsort, and for each market its demand side (with mean utilities [X1 @ beta + xi]
    of its rows, simulation.py 772), its supply side, shares in the data, structural errors, ownership, and firm of each product. *)
Record simulation := mk_simulation {
  s_ids : list Z; s_argsort : list nat; s_formulated : bool;
  s_market : Z -> full_market; s_supply : Z -> supply; s_shares : Z -> nat -> R; s_omega : Z -> nat -> R;
  s_ownership : Z -> nat -> nat -> R; s_firm : Z -> nat -> nat }.
Definition s_rows (S : simulation) (t : Z) : list nat := market_indices (s_ids S) (s_argsort S) t.
(** The position of a row in its market. *)
Definition position (ids : list Z) (i : nat) : nat := count_occ Z.eq_dec (firstn i ids) (nth i ids 0%Z).

(** [costs = self.products.X3 @ self.gamma + self.omega], exponentiated if costs are log-linear.  simulation.py 753-756. *)
Definition default_costs (S : simulation) : list R :=
  map (fun i => let t := nth i (s_ids S) 0%Z in initial_costs (s_supply S t) (s_shares S t) (s_omega S t) (position (s_ids S) i)) (seq 0 (length (s_ids S))).

(** Reasons for refusing arguments. *)
Inductive refusal := CostsShape | CostsMissing | PricesShape | IterationType | ErrorBehavior.
(** [costs] and [prices].  simulation.py 746-765.  Shapes other than vectors are left out. *)
Definition start_costs (S : simulation) (costs : option (list R)) : list R + refusal :=
  match costs with
  | Some c => if Nat.eqb (length c) (length (s_ids S)) then inl c else inr CostsShape
  | None => if s_formulated S then inl (default_costs S) else inr CostsMissing
  end.
Definition start_prices (S : simulation) (costs : list R) (prices : option (list R)) : list R + refusal :=
  match prices with
  | None => inl costs
  | Some p => if Nat.eqb (length p) (length (s_ids S)) then inl p else inr PricesShape
  end.
(** [iteration]: nothing, an [Iteration] (its routine), or something else.  economy.py 344-351. *)
Inductive iteration_argument := DefaultIteration | AnIteration (r : routine) | NotIteration.
Definition price_routine (default : routine) (a : iteration_argument) : routine + refusal :=
  match a with DefaultIteration => inl default | AnIteration r => inl r | NotIteration => inr IterationType end.
(** [_validate_error_behavior].  simulation.py 1050-1053. *)
Definition known_behavior (b : string) : bool := (String.eqb b "raise" || String.eqb b "warn")%bool.

(** [v[self._product_market_indices[s]]]. *)
Definition gather (v : list R) (indices : list nat) (j : nat) : R := nth (nth j indices 0) v 0%R.

(** One product's price, share, mean utility and cost. *)
Record product := mk_product { p_price : R; p_share : R; p_delta : R; p_cost : R }.

(** [profit_gradient_norms[t][f]].  simulation.py 824-828. *)
Fixpoint norm_of (l : list R) : R := match l with [] => 0%R | x :: l' => Rmax (Rabs x) (norm_of l') end.

(** [compute_endogenous] in market t and what the loop keeps of it, with norms of gradients as a function of firms.  simulation_market.py 16-70, 87-112;
    simulation.py 812-828.  [share_errors] are numerical errors when computing shares at prices.  Hessians are left out (C88). *)
Definition endogenous_market (S : simulation) (share_errors : Z -> (nat -> R) -> list (list nat)) (r : routine) (constant_costs gradients : bool)
    (costs prices : list R) (t : Z) : @market_output product solver_stats (option (nat -> R)) market_error :=
  let M := s_market S t in
  let J := mJ (fm M) in
  let c := gather costs (s_rows S t) in
  let '(x, stats, price_errors) :=
    r J (endogenous_contraction constant_costs M (s_ownership S t) (s_supply S t) (s_shares S t) c) (gather prices (s_rows S t)) in
  let price_errors := map PricesNumerical price_errors ++ (if converged stats then [] else [PricesConvergence]) in
  let c' := simulated_costs constant_costs M (s_supply S t) (s_shares S t) c x in
  {| out_rows := map (fun j => mk_product (x j) (simulated_shares M x j) (simulated_delta M x j) (c' j)) (seq 0 J);
     out_stats := stats;
     out_micro := if gradients then Some (fun f => norm_of (profit_gradients M (s_firm S t) (s_ownership S t) c' x f)) else None;
     out_errors := price_errors ++ map SharesNumerical (share_errors t x) |}.

(** Results: rows, statistics and norms by market. *)
Record results := mk_results { r_rows : nat -> product; r_stats : dict solver_stats; r_norms : dict (option (nat -> R)) }.
(** [_handle_errors]: raise errors, or output them and carry on.  economy.py 271-278. *)
Inductive outcome := Refused (why : refusal) | Raised (e : list market_error) | Returned (r : results) (displayed : list market_error).
Definition finish (behavior : string) (r : results) (e : list market_error) : outcome :=
  match e with
  | [] => Returned r []
  | _ => if String.eqb behavior "raise" then Raised e else Returned r e
  end.

(** Arrays start out as zeros.  simulation.py 793-800. *)
Definition nothing_yet : @assembled product solver_stats (option (nat -> R)) market_error :=
  {| rows := fun _ => mk_product 0 0 0 0; stats := fun _ => None; micro := fun _ => None; errors := [] |}.

(** [replace_endogenous].  simulation.py 738-856.  Markets arrive in [order]. *)
Definition replace_endogenous (S : simulation) (share_errors : Z -> (nat -> R) -> list (list nat)) (default : routine) (order : list Z)
    (costs prices : option (list R)) (iteration : iteration_argument) (constant_costs gradients : bool) (behavior : string) : outcome :=
  match start_costs S costs with
  | inr why => Refused why
  | inl c =>
    match start_prices S c prices with
    | inr why => Refused why
    | inl p =>
      match price_routine default iteration with
      | inr why => Refused why
      | inl r =>
        if negb (known_behavior behavior) then Refused ErrorBehavior else
        let a := assemble (s_rows S) nothing_yet (generate_items order (endogenous_market S share_errors r constant_costs gradients c p)) in
        finish behavior (mk_results (rows a) (stats a) (micro a)) (errors a)
      end
    end
  end.

(** Summary of results: failures, iterations and evaluations, in the order of markets.  simulation_results.py 184-199, 204-217. *)
Definition stat_of (d : dict solver_stats) (t : Z) : solver_stats := match d t with Some s => s | None => mk_stats false 0 0 end.
Definition failures (r : results) (markets : list Z) : nat := length (filter (fun t => negb (converged (stat_of (r_stats r) t))) markets).
Definition total_iterations (r : results) (markets : list Z) : nat := fold_right (fun t n => iterations (stat_of (r_stats r) t) + n) 0 markets.

(** Errors of a market in [replace_exogenous].  simulation_market.py 72-86, 114-163.  Arguments: numerical errors, whether shares were clipped,
    whether the routine converged, numerical errors and whether capital delta was not inverted for costs, whether costs are log-linear, and costs. *)
Definition exogenous_errors (numerical : list market_error) (clipped : list bool) (conv : bool) (formulated : bool) (cost_errors : list market_error)
    (costs : costs_type) (values : list R) : list market_error :=
  numerical ++ (if existsb (fun b => b) clipped then [ClippedShares] else []) ++ (if conv then [] else [DeltaConvergence]) ++
  (if formulated then cost_errors ++ (match costs with
     | LinearCosts => []
     | LogCosts => if existsb (fun c => if Rle_dec c 0 then true else false) values then [NonpositiveCosts] else []
     end) else []).
