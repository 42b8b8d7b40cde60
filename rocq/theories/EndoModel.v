(** Model of simulating prices and shares, and of estimating structural errors from them, in one market.
    Source: /repo/pyblp/economies/simulation.py, markets/simulation_market.py, markets/market.py.
    Definitions only. *)
From Coq Require Import Reals List Bool Arith.
From Verif Require Import Base DemandModel SupplyModel DerivModel.
Import ListNotations.
Local Open Scope R_scope.

(** Columns of X3 as functions of shares, with parameters and [costs_type]. *)
Inductive costs_type := LinearCosts | LogCosts.
Record supply := mk_supply { sK3 : nat; sX3 : nat -> column; sgamma : nat -> R; stype : costs_type }.

Fixpoint prodn (n : nat) (f : nat -> R) : R := match n with O => 1 | S m => prodn m f * f m end.

(** [update_costs_with_variable(costs, 'shares', shares)].  market.py 276-298.  [shares0] are those in
    the data. *)
Definition update_costs (S : supply) (shares0 costs shares : nat -> R) (j : nat) : R :=
  let change := fun k => sgamma S k * (ev (sX3 S k) j (shares j) - ev (sX3 S k) j (shares0 j)) in
  match stype S with
  | LinearCosts => costs j + sumn (sK3 S) (fun k => if uses (sX3 S k) then change k else 0)
  | LogCosts => costs j * prodn (sK3 S) (fun k => if uses (sX3 S k) then exp (change k) else 1)
  end.

(** [X3 @ gamma + omega], exponentiated if costs are log-linear.  simulation.py 751-754. *)
Definition initial_costs (S : supply) (shares0 omega : nat -> R) (j : nat) : R :=
  let tilde := sumn (sK3 S) (fun k => ev (sX3 S k) j (shares0 j) * sgamma S k) + omega j in
  match stype S with LinearCosts => tilde | LogCosts => exp tilde end.

(** [X1 @ beta + xi].  simulation.py 769. *)
Definition initial_delta (M : full_market) (xi : nat -> R) (j : nat) : R :=
  sumn (fK1 M) (fun k => ev (fX1 M k) j (var0 M j) * fbeta M k) + xi j.

(** Costs at the prices of an iteration, and the function that is iterated.  market.py 813-853. *)
Definition costs_given (constant_costs : bool) (M : full_market) (S : supply) (shares0 costs x : nat -> R) : nat -> R :=
  if constant_costs then costs else update_costs S shares0 costs (shares_at M x).
Definition endogenous_contraction (constant_costs : bool) (M : full_market) (ownership : nat -> nat -> R)
    (S : supply) (shares0 costs x : nat -> R) : nat -> R :=
  price_contraction M ownership (costs_given constant_costs M S shares0 costs x) x.

(** [compute_endogenous] at the prices that the routine returned: shares, delta, and costs.
    simulation_market.py 37-46. *)
Definition simulated_shares (M : full_market) (x : nat -> R) : nat -> R := shares_at M x.
Definition simulated_delta (M : full_market) (x : nat -> R) : nat -> R := update_delta M x.
Definition simulated_costs (constant_costs : bool) (M : full_market) (S : supply) (shares0 costs x : nat -> R) : nat -> R :=
  if constant_costs then costs else update_costs S shares0 costs (simulated_shares M x).

(** A market of a problem whose product data have the new prices: X2 is rebuilt from the data.
    market.py 66-163; simulation_results.py 196-287. *)
Definition market_on (M : full_market) (x delta : nat -> R) : full_market :=
  mk_full_market (fm M) (fI M) (fw M) (fK1 M) (fX1 M) (fbeta M) (fK2 M) (fX2 M) (fcoef M) x delta
    (fun j k => if uses (fX2 M k) then ev (fX2 M k) j (x j) else X2_0 M j k).

(** Structural errors at given parameters: [delta - X1 @ beta] and [tilde_costs - X3 @ gamma], with X1
    and X3 built from the data's prices and shares.  problem.py 1406-1500, when all linear parameters
    are given. *)
Definition residual_xi (M : full_market) (delta : nat -> R) (j : nat) : R :=
  delta j - sumn (fK1 M) (fun k => ev (fX1 M k) j (var0 M j) * fbeta M k).

(** [np.clip(costs, *costs_bounds)], with an infinite bound written [None]. *)
Definition clip_cost (bounds : option R * option R) (c : R) : R :=
  let c := match fst bounds with Some lo => Rmax c lo | None => c end in
  match snd bounds with Some hi => Rmin c hi | None => c end.

(** [safely_compute_tilde_costs], from marginal costs [prices - eta].  problem_market.py 275-309. *)
Definition tilde_costs (S : supply) (bounds : option R * option R) (costs : nat -> R) (j : nat) : R :=
  let c := clip_cost bounds (costs j) in
  match stype S with LinearCosts => c | LogCosts => ln c end.
Definition residual_omega (S : supply) (bounds : option R * option R) (shares costs : nat -> R) (j : nat) : R :=
  tilde_costs S bounds costs j - sumn (sK3 S) (fun k => ev (sX3 S k) j (shares j) * sgamma S k).

(** [profit_gradients] and [profit_hessians] of [compute_endogenous].  simulation_market.py 48-70. *)
Definition firm_rows (J : nat) (firm : nat -> nat) (f : nat) : list nat :=
  filter (fun j => Nat.eqb (firm j) f) (seq 0 J).
Definition firm_profit_gradient (M : full_market) (ownership : nat -> nat -> R) (costs x : nat -> R) (k : nat) : R :=
  sumn (mJ (fm M)) (fun j => ownership j k * profit_jacobian M costs x j k).
Definition profit_gradients (M : full_market) (firm : nat -> nat) (ownership : nat -> nat -> R)
    (costs x : nat -> R) (f : nat) : list R :=
  map (firm_profit_gradient M ownership costs x) (firm_rows (mJ (fm M)) firm f).
Definition firm_profit_hessian (M : full_market) (ownership : nat -> nat -> R) (costs x : nat -> R) (k l : nat) : R :=
  sumn (mJ (fm M)) (fun j => ownership j k * profit_hessian M costs x j k l).
Definition profit_hessians (M : full_market) (firm : nat -> nat) (ownership : nat -> nat -> R)
    (costs x : nat -> R) (f : nat) : list (list R) :=
  map (fun k => map (firm_profit_hessian M ownership costs x k) (firm_rows (mJ (fm M)) firm f))
      (firm_rows (mJ (fm M)) firm f).
