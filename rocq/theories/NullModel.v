(** Model of post-estimation methods in one market with their optional arguments.
    Source: /repo/pyblp/markets/economy_results_market.py 105-118, 195-209, 225-235, 300-463 and markets/market.py 93-96, 171-181, 736-750,
    813-892.  Definitions only.  How arguments are validated and restricted to markets is in PostModel.v. *)
From Coq Require Import Reals ZArith List Bool Arith.
From Verif Require Import Base FltModel IterModel DemandModel SupplyModel WelfareModel ConvModel EndoModel.
Import ListNotations.
Local Open Scope R_scope.

(** What a market is initialized with: prices are [var0] and mean utilities are [delta0].  Firm IDs and ownership may not be in the data.
    market.py 66-163. *)
Record estimated := mk_estimated {
  e_market : full_market;
  e_shares : nat -> R;
  e_firm : option (nat -> Z);
  e_ownership : option (nat -> nat -> R);
  e_supply : supply
}.

Definition built_ownership (firm : nat -> Z) (j k : nat) : R := if Z.eqb (firm j) (firm k) then 1 else 0.
(** [get_ownership_matrix].  market.py 93-96, 171-181.  None: ValueError. *)
Definition ownership_used (e : estimated) (firm : option (nat -> Z)) (ownership : option (nat -> nat -> R)) : option (nat -> nat -> R) :=
  match ownership with
  | Some o => Some o
  | None =>
      match firm with
      | Some f => Some (built_ownership f)
      | None =>
          match e_ownership e with
          | Some o => Some o
          | None => option_map built_ownership (e_firm e)
          end
      end
  end.

(** [safely_compute_costs].  economy_results_market.py 225-235. *)
Definition costs_method (solve : SupplyModel.solver) (e : estimated) (firm : option (nat -> Z)) (ownership : option (nat -> nat -> R))
    : option ((nat -> R) * bool) :=
  option_map (fun o => compute_costs solve (e_market e) o (e_shares e)) (ownership_used e firm ownership).
(** [if costs is None: costs, costs_errors = self.safely_compute_costs()].  Lines 315-317, 339-341, 374-376, 393-395. *)
Definition costs_or_default (solve : SupplyModel.solver) (e : estimated) (costs : option (nat -> R)) : option ((nat -> R) * bool) :=
  match costs with Some c => Some (c, false) | None => costs_method solve e None None end.

(** [safely_compute_approximate_equilibrium_prices].  Lines 300-322. *)
Definition approximate_prices_method (solve : SupplyModel.solver) (e : estimated) (firm : option (nat -> Z)) (ownership : option (nat -> nat -> R))
    (costs : option (nat -> R)) : option (nat -> R) :=
  match ownership_used e firm ownership, costs_or_default solve e costs with
  | Some o, Some (c, _) => Some (fun j => c j + fst (compute_eta solve (e_market e) o (e_shares e)) j)
  | _, _ => None
  end.

(** The function given to the routine by [compute_equilibrium_prices].  market.py 813-856, 886.  Values that are not finite are mapped to NaN
    altogether; the theorems are about finite values. *)
Definition prices_function (e : estimated) (constant_costs : bool) (o : nat -> nat -> R) (costs : nat -> R) : contraction_fn :=
  fun _ _ _ x =>
    let J := mJ (fm (e_market e)) in
    if vfin x then (flat J (endogenous_contraction constant_costs (e_market e) o (e_supply e) (e_shares e) costs (ConvModel.column x)),
                    Some (flat J (price_weights (e_market e) (ConvModel.column x))))
    else (repeat NaN J, Some (repeat NaN J)).
(** A configured routine, and [safely_compute_prices].  Lines 324-345; market.py 748-750, 887-892. *)
Definition routine := contraction_fn -> fvec -> option outcome.
Definition prices_method (solve : SupplyModel.solver) (iterate : routine) (e : estimated) (constant_costs : bool) (firm : option (nat -> Z))
    (ownership : option (nat -> nat -> R)) (costs prices : option (nat -> R)) : option outcome :=
  match ownership_used e firm ownership, costs_or_default solve e costs with
  | Some o, Some (c, _) =>
      iterate (prices_function e constant_costs o c) (flat (mJ (fm (e_market e))) (match prices with Some p => p | None => var0 (e_market e) end))
  | _, _ => None
  end.

(** [safely_compute_probabilities] and [safely_compute_shares].  Lines 195-209, 347-353. *)
Definition probabilities_method (e : estimated) (prices delta : option (nat -> R)) (i j : nat) : R :=
  let M := e_market e in
  let mu := match prices with None => compute_mu M (X2_0 M) | Some p => update_mu M p end in
  let d := match delta with
           | Some d => d
           | None => match prices with None => delta0 M | Some p => update_delta M p end
           end in
  probs (fm M) d mu i j.
Definition shares_method (e : estimated) (prices delta : option (nat -> R)) (j : nat) : R :=
  sumn (fI (e_market e)) (fun i => probabilities_method e prices delta i j * fw (e_market e) i).

(** [safely_compute_hhi].  Lines 355-364.  Without firm IDs, the sum over unique firm IDs is a sum over nothing. *)
Definition hhi_method (e : estimated) (firm : option (nat -> Z)) (shares : option (nat -> R)) : R :=
  let s := match shares with Some s => s | None => e_shares e end in
  match (match firm with Some f => Some f | None => e_firm e end) with
  | Some f => compute_hhi (map (fun j => (f j, s j)) (seq 0 (mJ (fm (e_market e)))))
  | None => 10 ^ 4 * 0
  end.

(** [safely_compute_markups] and [safely_compute_profits].  Lines 366-397. *)
Definition markups_method (solve : SupplyModel.solver) (e : estimated) (prices costs : option (nat -> R)) : option (nat -> R) :=
  let p := match prices with Some p => p | None => var0 (e_market e) end in
  option_map (fun c j => (p j - fst c j) / p j) (costs_or_default solve e costs).
Definition profits_method (solve : SupplyModel.solver) (e : estimated) (prices shares costs : option (nat -> R)) : option (nat -> R) :=
  let p := match prices with Some p => p | None => var0 (e_market e) end in
  let s := match shares with Some s => s | None => e_shares e end in
  option_map (fun c j => (p j - fst c j) * s j) (costs_or_default solve e costs).

(** [safely_compute_consumer_surplus], individual and integrated.  Lines 399-461. *)
Definition surplus_method (e : estimated) (avail : nat -> option (nat -> R)) (mask : option (nat -> bool)) (prices : option (nat -> R)) (i : nat) : R :=
  let M := e_market e in
  let '(d, mu) := match prices with
                  | None => (delta0 M, compute_mu M (X2_0 M))
                  | Some p => (update_delta M p, update_mu M p)
                  end in
  surplus_numerator (fm M) (avail i) mask d (mu i) / - utility_derivatives M false (var0 M) i 0.
Definition total_surplus_method (e : estimated) (avail : nat -> option (nat -> R)) (mask : option (nat -> bool)) (prices : option (nat -> R)) : R :=
  sumn (fI (e_market e)) (fun i => surplus_method e avail mask prices i * fw (e_market e) i).

(** [safely_compute_delta] with random coefficients: iteration starts at the mean utilities of the market.  Lines 105-118. *)
Definition delta_method (iterate : routine) (e : estimated) (safe : bool) (bounds : option R * option R) : option outcome :=
  let M := e_market e in
  iterate (delta_function (fm M) (agents_with M (compute_mu M (X2_0 M))) safe bounds (e_shares e)) (flat (mJ (fm M)) (delta0 M)).
