(** Properties of consumer surplus, the Herfindahl-Hirschman index, long-run diversion ratios and
    aggregate elasticities. *)
From Coq Require Import Reals Lra Lia ZArith List Bool Arith Permutation.
From Verif Require Import Base DemandSpec DemandModel DemandProofs DemandShares DemandElim DemandDeriv
  SupplyModel SupplySpec SupplyProofs BasicsModel WelfareModel WelfareSpec WelfareProofs.
Import ListNotations.
Local Open Scope R_scope.

(** C17: with the default scale of idiosyncratic tastes and no income effects, each agent's surplus is
    the expected maximum utility over the choice set divided by the marginal utility of income, for
    every availability and set of eliminated products. *)
Theorem C17_surplus_is_expected_maximum :
  forall M avail mask x i a,
  valid_market (fm M) -> (forall y, good_columns M y) -> eps_scale (fm M) = 1 ->
  no_income_effects (mJ (fm M)) (price_utility M i) a ->
  individual_surplus M (fun i => option_map (fun b j => indR (b j)) (avail i)) mask x i =
  (let inc := included (avail i) None mask in
   if Nat.eqb (mH (fm M)) 0 then expected_max (mJ (fm M)) inc 1 (price_utility M i x)
   else nested_expected_max (mJ (fm M)) (mH (fm M)) (gid (fm M)) (grho (fm M)) inc (price_utility M i x)) / a.
Proof. exact income_surplus_exact. Qed.
Print Assumptions C17_surplus_is_expected_maximum.

(** C17: Roy's identity.  The derivative of surplus with respect to a price is minus the share of the
    product in the choice set in use. *)
Theorem C17_price_derivative_is_share :
  forall M avail mask safe x k a,
  valid_market (fm M) -> (forall y, good_columns M y) -> eps_scale (fm M) = 1 -> (k < mJ (fm M))%nat ->
  (forall i, (i < fI M)%nat -> a i <> 0) ->
  (forall i, (i < fI M)%nat -> no_income_effects (mJ (fm M)) (price_utility M i) (a i)) ->
  derivable_pt_lim (fun t => consumer_surplus M (fun i => option_map (fun b j => indR (b j)) (avail i)) mask (upd x k t))
    (x k)
    (- sumn (fI M) (fun i => fst (probabilities_linear (fm M) (choice_with true (avail i) None mask) safe
                        (update_delta M x) (update_mu M x i)) k * fw M i)).
Proof. exact income_roy. Qed.
Print Assumptions C17_price_derivative_is_share.

(** C17: the derivative of the numerator with respect to a mean utility is the choice probability. *)
Theorem C17_delta_derivative_is_probability :
  forall m avail mask safe delta mu k,
  valid_market m -> eps_scale m = 1 -> (k < mJ m)%nat ->
  derivable_pt_lim (fun t => surplus_numerator m (option_map (fun b j => indR (b j)) avail) mask (upd delta k t) mu)
    (delta k) (fst (probabilities_linear m (choice_with true avail None mask) safe delta mu) k).
Proof. exact surplus_delta_derivative. Qed.
Print Assumptions C17_delta_derivative_is_probability.

(** C17: eliminating products never raises surplus, which is never negative. *)
Theorem C17_elimination_lowers_surplus :
  forall M avail mask x i a,
  valid_market (fm M) -> (forall y, good_columns M y) -> eps_scale (fm M) = 1 -> 0 < a ->
  no_income_effects (mJ (fm M)) (price_utility M i) a ->
  let av := fun i => option_map (fun b j => indR (b j)) (avail i) in
  individual_surplus M av (Some mask) x i <= individual_surplus M av None x i /\
  0 <= individual_surplus M av (Some mask) x i.
Proof. exact income_elimination. Qed.
Print Assumptions C17_elimination_lowers_surplus.

(** C17 is refuted for other scales: utilities are not divided by the scale inside the log-sum. *)
Theorem C17_epsilon_scale_refuted :
  exists M, valid_market (fm M) /\ (forall y, good_columns M y) /\ mH (fm M) = O /\ eps_scale (fm M) = 2 /\
  no_income_effects (mJ (fm M)) (price_utility M 0) 1 /\
  individual_surplus M (fun _ => None) None (var0 M) 0
  <> expected_max (mJ (fm M)) all_goods (eps_scale (fm M)) (price_utility M 0 (var0 M)) / 1.
Proof. exact surplus_scale_refuted. Qed.
Print Assumptions C17_epsilon_scale_refuted.

(** C17 is refuted as documented when prices enter nonlinearly: at changed prices, the marginal utility
    of income is still evaluated at the old ones. *)
Theorem C17_derivative_at_given_prices_refuted :
  exists M x, valid_market (fm M) /\ (forall y, good_columns M y) /\ eps_scale (fm M) = 1 /\ mJ (fm M) = 1%nat /\
  forall d, derivable_pt_lim (fun t => price_utility M 0 (upd x 0 t) 0) (x O) (- d) ->
  individual_surplus M (fun _ => None) None x 0
  <> expected_max (mJ (fm M)) all_goods 1 (price_utility M 0 x) / d.
Proof. exact surplus_point_refuted. Qed.
Print Assumptions C17_derivative_at_given_prices_refuted.

(** The hypotheses are met by a market with one product of utility log 4. *)
Example C17_applies :
  valid_market (fm (scaled_market 1)) /\ (forall y, good_columns (scaled_market 1) y) /\
  eps_scale (fm (scaled_market 1)) = 1 /\
  no_income_effects (mJ (fm (scaled_market 1))) (price_utility (scaled_market 1) 0) 1 /\
  individual_surplus (scaled_market 1) (fun _ => None) None (fun _ => 0) 0 = ln 5.
Proof.
  split; [apply scaled_valid; lra|]. split; [apply scaled_good|]. split; [reflexivity|].
  split; [apply scaled_income|]. rewrite scaled_surplus by lra. ring.
Qed.

(** C18: the index is 10,000 times the sum of squared firm shares of inside sales. *)
Theorem C18_hhi_of_inside_shares :
  forall products, is_hhi true products (compute_hhi products).
Proof. exact hhi_normalised. Qed.
Print Assumptions C18_hhi_of_inside_shares.

(** C18: it lies between 10,000 over the number of firms and 10,000. *)
Theorem C18_hhi_bounds :
  forall products firms,
  (forall p, In p products -> 0 <= snd p) -> 0 < total snd products ->
  NoDup firms -> (forall f, In f firms <-> exists s, In (f, s) products) ->
  10000 / INR (length firms) <= compute_hhi products /\ 0 <= compute_hhi products <= 10000.
Proof. intros products firms H HS Nd Hf. split; [apply hhi_lower; assumption|apply hhi_bounds; assumption]. Qed.
Print Assumptions C18_hhi_bounds.

(** C18: the order of products does not matter. *)
Theorem C18_hhi_order :
  forall products products', Permutation products products' -> compute_hhi products = compute_hhi products'.
Proof. exact hhi_order. Qed.
Print Assumptions C18_hhi_order.

(** C18: a merger of firms f and g raises the index by twice the product of their shares. *)
Theorem C18_hhi_merger :
  forall products f g, f <> g -> total snd products <> 0 ->
  compute_hhi (map (fun p => (if Z.eqb (fst p) g then f else fst p, snd p)) products) - compute_hhi products
  = 20000 * (total (fun p => if Z.eqb (fst p) f then snd p else 0) products / total snd products)
          * (total (fun p => if Z.eqb (fst p) g then snd p else 0) products / total snd products).
Proof. exact hhi_merger. Qed.
Print Assumptions C18_hhi_merger.

(** C18 is refuted as documented: the documented formula uses market shares, of which the outside
    option is a part, but the code divides by the sum of inside shares. *)
Theorem C18_documented_formula_refuted :
  exists products, (forall p, In p products -> 0 < snd p) /\ total snd products < 1 /\
  ~ is_hhi false products (compute_hhi products).
Proof. exact hhi_documented_refuted. Qed.
Print Assumptions C18_documented_formula_refuted.

Example C18_applies :
  let products := [(1%Z, / 4); (2%Z, / 8); (1%Z, / 8)] in
  (forall p, In p products -> 0 <= snd p) /\ 0 < total snd products /\
  NoDup [2%Z; 1%Z] /\ (forall f, In f [2%Z; 1%Z] <-> exists s, In (f, s) products) /\
  compute_hhi products = 6250.
Proof.
  cbv zeta. split; [|split; [|split; [|split]]].
  - simpl. intros p [<-|[<-|[<-|[]]]]; simpl; lra.
  - simpl. lra.
  - repeat constructor; simpl; intuition congruence.
  - intros f. simpl. split.
    + intros [<-|[<-|[]]]; eexists; [right; left|left]; reflexivity.
    + intros [s [E|[E|[E|[]]]]]; injection E as <- _; auto.
  - unfold compute_hhi, firm_share, lsum. simpl. field.
Qed.

(** C58: rows of the long-run diversion matrix sum to one, whatever the observed shares. *)
Theorem C58_long_run_rows_sum_to_one :
  forall m a delta observed j,
  valid_market m -> (j < mJ m)%nat -> observed j <> 0 ->
  sumn (mJ m) (long_run_diversion m a delta observed j) = 1.
Proof. exact long_run_rows. Qed.
Print Assumptions C58_long_run_rows_sum_to_one.

(** C58: at observed shares that the model reproduces, entries are nonnegative. *)
Theorem C58_long_run_nonnegative :
  forall m a delta j k,
  valid_market m -> valid_agents a ->
  (mH m <> O -> forall h, (h < mH m)%nat -> 0 <= grho m h) ->
  (j < mJ m)%nat -> (k < mJ m)%nat ->
  0 <= long_run_diversion m a delta (market_shares m a true delta) j k.
Proof. exact long_run_nonneg. Qed.
Print Assumptions C58_long_run_nonnegative.

(** C58: entry (j, k) is the part of j's customers that k gains in the market in which j does not
    exist, and the diagonal entry is what the outside option gains. *)
Theorem C58_long_run_meaning :
  forall m a delta j k,
  valid_market m -> valid_agents a -> (1 < mJ m)%nat -> (j < mJ m)%nat -> (k < pred (mJ m))%nat ->
  let m' := drop_product m j in
  let a' := mk_agents (aI a) (aw a) (fun i l => amu a i (skip j l)) in
  let s := market_shares m a true delta in
  let s' := market_shares m' a' true (fun l => delta (skip j l)) in
  long_run_diversion m a delta s j (skip j k) * s j = s' k - s (skip j k) /\
  long_run_diversion m a delta s j j * s j = sumn (mJ m) s - sumn (pred (mJ m)) s'.
Proof. exact long_run_meaning. Qed.
Print Assumptions C58_long_run_meaning.

Example C58_applies :
  let m := mk_market 2 1 (fun _ => O) false (fun _ => / 2) 1 in
  let a := mk_agents 2 (fun _ => / 2) (fun i j => INR i * INR j) in
  valid_market m /\ valid_agents a /\ (forall h, (h < mH m)%nat -> 0 <= grho m h).
Proof.
  cbv zeta. split; [|split].
  - constructor; simpl; intros; try lra; try lia; reflexivity.
  - split; simpl; [intros; lra|]. exists O. split; [lia|lra].
  - simpl; intros; lra.
Qed.

(** C66: as the factor shrinks, the aggregate elasticity tends to the response of total inside shares
    to a proportional change in the variable, at observed shares that the model reproduces. *)
Theorem C66_aggregate_elasticity_limit :
  forall M observed,
  valid_market (fm M) -> good_columns M (var0 M) ->
  (forall j, (j < mJ (fm M))%nat -> observed j = shares_at M (var0 M) j) ->
  let J := mJ (fm M) in
  limit1_in (aggregate_elasticity M observed) (fun f => f <> 0)
    (sumn J (fun j => sumn J (fun k => shares_jacobian M (var0 M) j k * var0 M k))) 0.
Proof. exact aggregate_limit. Qed.
Print Assumptions C66_aggregate_elasticity_limit.

Example C66_applies : valid_market (fm (scaled_market 2)) /\ (forall y, good_columns (scaled_market 2) y).
Proof. split; [apply scaled_valid; lra|intros; apply scaled_good]. Qed.
