(** Model of the welfare measures in /repo/pyblp/markets/economy_results_market.py: long-run diversion
    ratios, HHI, consumer surplus, aggregate elasticities.  Definitions only. *)
From Coq Require Import Reals ZArith List Bool Arith.
From Verif Require Import Base DemandModel SupplyModel BasicsModel.
Import ListNotations.
Local Open Scope R_scope.

(** Shares when product j is eliminated: [compute_probabilities(eliminate_product=j)[0] @ weights].
    economy_results_market.py 190. *)
Definition shares_without (m : market) (a : agents) (delta : nat -> R) (j k : nat) : R :=
  sumn (aI a) (fun i =>
    fst (probabilities_linear m (mk_choice false None (Some j) None) true delta (amu a i)) k * aw a i).

(** [safely_compute_long_run_diversion_ratios].  economy_results_market.py 184-193: row j is first
    filled with changes relative to the observed share of j, then its diagonal entry is replaced by
    minus the sum of the row. *)
Definition long_run_diversion (m : market) (a : agents) (delta observed : nat -> R) (j k : nat) : R :=
  let row := fun l => (shares_without m a delta j l - observed l) / observed j in
  if Nat.eqb k j then - sumn (mJ m) row else row k.

(** Sum of a list of numbers. *)
Definition lsum (l : list R) : R := fold_right Rplus 0 l.

(** [safely_compute_hhi].  economy_results_market.py 356-365.  Products are pairs of a firm ID and a
    share. *)
Definition firm_share (products : list (Z * R)) (f : Z) : R :=
  lsum (map snd (filter (fun p => Z.eqb (fst p) f) products)).
Definition compute_hhi (products : list (Z * R)) : R :=
  10000 * lsum (map (fun f => let s := firm_share products f / lsum (map snd products) in s * s)
                    (np_unique (map fst products))).

(** [safely_compute_consumer_surplus] up to the division by the marginal utility of income, for one
    agent.  economy_results_market.py 417-457.  [avail] is the agent's row of availability and [mask]
    says which products are in [eliminate_product_ids].  There is no division by [epsilon_scale]. *)
Definition surplus_utilities (m : market) (delta mu : nat -> R) : nat -> R :=
  fun j => let u := delta j + mu j in if Nat.eqb (mH m) 0 then u else u / (1 - rho m j).
Definition min_rho (m : market) : R := - maxn (pred (mH m)) (fun h => - grho m h).
Definition surplus_numerator (m : market) (avail : option (nat -> R)) (mask : option (nat -> bool))
    (delta mu : nat -> R) : R :=
  let u := surplus_utilities m delta mu in
  let r := utility_reduction m u in
  let e := restrict_choice (mk_choice false avail None mask) (fun j => exp (u j - r)) in
  if Nat.eqb (mH m) 0 then
    let log_scale := - r in
    ln (exp log_scale + sumn (mJ m) e) - log_scale
  else
    let ew := fun h => exp_log_mult (gsum m e h) (1 - grho m h) in
    let log_scale := - r * (1 - min_rho m) in
    let weights := fun h => if rho_multi m then exp (- r * (grho m h - min_rho m)) else 1 in
    ln (exp log_scale + sumn (mH m) (fun h => weights h * ew h)) - log_scale.

(** Individual surpluses at prices x, and their integral.  economy_results_market.py 409-415, 450-461.
    The utility derivatives are those of the first product and are evaluated at [self.products]
    (var0), whatever the prices x. *)
Definition individual_surplus (M : full_market) (avail : nat -> option (nat -> R))
    (mask : option (nat -> bool)) (x : nat -> R) (i : nat) : R :=
  surplus_numerator (fm M) (avail i) mask (update_delta M x) (update_mu M x i)
  / - utility_derivatives M false (var0 M) i 0.
Definition consumer_surplus (M : full_market) (avail : nat -> option (nat -> R))
    (mask : option (nat -> bool)) (x : nat -> R) : R :=
  sumn (fI M) (fun i => individual_surplus M avail mask x i * fw M i).

(** [safely_compute_aggregate_elasticity] with respect to a named variable.
    economy_results_market.py 120-135. *)
Definition aggregate_elasticity (M : full_market) (observed : nat -> R) (factor : R) : R :=
  sumn (mJ (fm M)) (fun j => shares_at M (fun k => (1 + factor) * var0 M k) j - observed j) / factor.

(** [safely_compute_markups] and [safely_compute_profits].  economy_results_market.py 367-396. *)
Definition markups (prices costs : nat -> R) (j : nat) : R := (prices j - costs j) / prices j.
Definition profits (prices shares costs : nat -> R) (j : nat) : R := (prices j - costs j) * shares j.
