(** C132: currencies and units of characteristics. *)
From Coq Require Import Reals ZArith Lra Lia List Bool Arith.
From Verif Require Import Base FltModel IterModel DemandModel DemandProofs SupplyModel SupplyProofs DerivModel ConvModel WelfareModel
  PostModel EquilModel EndoSpec EquilMarket EquilWitness OrderWitness UnitsSpec UnitsProofs.
Import ListNotations.
Local Open Scope R_scope.

(** C132: when prices are measured in another currency, with c units per old one, shares, elasticities, diversion ratios, and aggregate
    elasticities are the same, and derivatives with respect to prices are divided by c. *)
Theorem C132_shares_elasticities :
  forall c M M', 0 < c -> other_currency c M M' ->
  (forall x j, shares_at M' (fun k => c * x k) j = shares_at M x j) /\
  (forall x j k, shares_jacobian M' (fun k => c * x k) j k = shares_jacobian M x j k / c) /\
  (forall observed j k, elasticities M' observed j k = elasticities M observed j k) /\
  (forall J x j k, shares_jacobian M x j j <> 0 ->
     diversion_ratios J (shares_jacobian M' (fun k => c * x k)) j k = diversion_ratios J (shares_jacobian M x) j k) /\
  (forall observed factor, aggregate_elasticity M' observed factor = aggregate_elasticity M observed factor).
Proof.
  intros c M M' Hc H. split; [|split; [|split; [|split]]]; intros.
  - apply shares_same; assumption.
  - apply jacobian_scaled; assumption.
  - apply elasticities_same with (c := c); assumption.
  - apply diversion_same; assumption.
  - apply aggregate_same with (c := c); assumption.
Qed.
Print Assumptions C132_shares_elasticities.

(** C132: marginal costs and profits are measured in that currency, and markups, which are relative to prices, are the same. *)
Theorem C132_costs :
  forall c M M' solve solve' O observed, 0 < c -> other_currency c M M' ->
  nonsingular (mJ (fm M)) (capital_delta M O (var0 M)) -> exact_solver (mJ (fm M)) solve -> exact_solver (mJ (fm M)) solve' ->
  snd (compute_costs solve M O observed) = false -> snd (compute_costs solve' M' O observed) = false ->
  forall j, (j < mJ (fm M))%nat -> fst (compute_costs solve' M' O observed) j = c * fst (compute_costs solve M O observed) j.
Proof. intros c M M' solve solve' O observed Hc H. exact (costs_scaled c M M' Hc H solve solve' O observed). Qed.
Print Assumptions C132_costs.
Theorem C132_markups_profits :
  forall c prices shares costs j, 0 < c -> prices j <> 0 ->
  markups (fun k => c * prices k) (fun k => c * costs k) j = markups prices costs j /\
  profits (fun k => c * prices k) shares (fun k => c * costs k) j = c * profits prices shares costs j.
Proof. intros c prices shares costs j Hc Hp. split; [apply markups_same; assumption|apply profits_scaled]. Qed.
Print Assumptions C132_markups_profits.

(** C132: consumer surplus is measured in that currency. *)
Theorem C132_consumer_surplus :
  forall c M M' avail mask x, 0 < c -> other_currency c M M' ->
  (forall i, (i < fI M)%nat -> utility_derivatives M false (var0 M) i 0 <> 0) ->
  consumer_surplus M' avail mask (fun k => c * x k) = c * consumer_surplus M avail mask x.
Proof. intros c M M' avail mask x Hc H. exact (surplus_scaled c M M' Hc H avail mask x). Qed.
Print Assumptions C132_consumer_surplus.

(** C132: equilibrium prices are converted, and found after the same numbers of iterations and evaluations: the convergence
    criterion is in terms of first order conditions, which do not have units of a currency. *)
Theorem C132_equilibrium_prices :
  forall c M M' O costs t max start, 0 < c -> other_currency c M M' ->
  (forall x j, (j < mJ (fm M))%nat -> lamda_at M x j <> 0) ->
  match equilibrium_prices M O costs t max start,
        equilibrium_prices M' O (fun k => c * costs k) t max (option_map (fun x k => c * x k) start) with
  | Some o, Some o' => o_x o' = map (fmul (Num c)) (o_x o) /\ o_converged o' = o_converged o /\
      s_iterations (o_st o') = s_iterations (o_st o) /\ s_evaluations (o_st o') = s_evaluations (o_st o)
  | None, None => True
  | _, _ => False
  end.
Proof.
  intros c M M' O costs t max start Hc H HL. exact (prices_scaled c M M' Hc H O costs t HL max start).
Qed.
Print Assumptions C132_equilibrium_prices.

(** C132: when prices enter linearly, dividing coefficients on them by c is what converts them. *)
Theorem C132_linear_prices :
  forall c M, 0 < c ->
  (forall k, (k < fK1 M)%nat -> linear_in_prices (fX1 M k)) -> (forall k, (k < fK2 M)%nat -> linear_in_prices (fX2 M k)) ->
  other_currency c M (adjusted c M).
Proof. exact adjusted_currency. Qed.
Print Assumptions C132_linear_prices.

(** C132: other characteristics with random coefficients can be measured in other units, if rows of Sigma and Pi are divided
    by what the characteristics are multiplied by. *)
Theorem C132_characteristics :
  forall u t sigma pi i j, (forall k, (k < r_K2 t)%nat -> r_types t k = RCLinear /\ u k <> 0) ->
  mu_of (other_units u t) (fun k l => sigma k l / u k) (fun k d => pi k d / u k) i j = mu_of t sigma pi i j.
Proof. exact mu_units. Qed.
Print Assumptions C132_characteristics.

(** Two products that cost one, and whose prices are measured in cents. *)
Example C132_applies :
  other_currency 100 two_products (adjusted 100 two_products) /\
  (forall x j, (j < 2)%nat -> lamda_at two_products x j <> 0) /\
  nonsingular 2 (capital_delta two_products (firm_ownership [1; 2]%Z) (var0 two_products)) /\
  snd (compute_costs diagonal_solver two_products (firm_ownership [1; 2]%Z) (shares_at two_products (var0 two_products))) = false /\
  (forall i, (i < 1)%nat -> utility_derivatives two_products false (var0 two_products) i 0 <> 0).
Proof.
  split; [|split; [|split; [exact two_products_nonsingular|split; [exact two_products_costs|]]]].
  - apply adjusted_currency; [lra| |intros k Hk; cbn in Hk; lia]. intros k _. right. exists (fun _ => 1). reflexivity.
  - intros x j Hj. apply Rlt_not_eq, (plain_lamda_neg two_products 1 two_products_plain); assumption.
  - intros i _. unfold two_products. rewrite flat_derivative. lra.
Qed.
Example C132_characteristics_applies :
  let t := mk_tastes 1 0 (fun _ => RCLinear) (fun i _ => INR i) (fun _ _ _ => 0) (fun j _ => INR j) in
  (forall k, (k < r_K2 t)%nat -> r_types t k = RCLinear /\ 1000 <> 0) /\ mu_of t (fun _ _ => 1) (fun _ _ => 0) 1 1 = 1.
Proof. split; [intros; split; [reflexivity|lra]|]. unfold mu_of, random_coefficients. cbn. ring. Qed.
