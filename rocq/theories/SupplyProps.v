(** Properties of markups, equilibrium prices, elasticities and diversion ratios. *)
From Coq Require Import Reals Lra Lia List Bool Arith.
From Verif Require Import Base DemandSpec DemandModel DemandProofs DemandShares DemandDeriv SupplyModel SupplySpec SupplyProofs.
Local Open Scope R_scope.

(** C12: with a standard ownership matrix, observed prices maximise profits to first order at the
    recovered costs, whenever no inversion error is reported. *)
Theorem C12_costs_rationalise_prices :
  forall solve M O observed,
  valid_market (fm M) -> good_columns M (var0 M) -> exact_solver (mJ (fm M)) solve ->
  (forall j, (j < mJ (fm M))%nat -> O j j = 1) ->
  (forall j, (j < mJ (fm M))%nat -> observed j = shares_at M (var0 M) j) ->
  snd (compute_costs solve M O observed) = false ->
  bertrand (mJ (fm M)) O (fst (compute_costs solve M O observed)) (shares_at M) (var0 M).
Proof. exact costs_bertrand. Qed.
Print Assumptions C12_costs_rationalise_prices.

(** C12, any ownership matrix: the documented markup equation holds with the true derivatives. *)
Theorem C12_costs_markup_equation :
  forall solve M O observed,
  valid_market (fm M) -> good_columns M (var0 M) -> exact_solver (mJ (fm M)) solve ->
  snd (compute_costs solve M O observed) = false ->
  exists D, is_jacobian (mJ (fm M)) (shares_at M) (var0 M) D /\
    markup_equation (mJ (fm M)) O D observed (fun j => var0 M j - fst (compute_costs solve M O observed) j).
Proof. exact costs_any_ownership. Qed.
Print Assumptions C12_costs_markup_equation.

(** C12: approximate prices under unchanged ownership are the observed prices. *)
Theorem C12_approximate_prices_roundtrip :
  forall solve M O observed costs,
  costs = None \/ costs = Some (fst (compute_costs solve M O observed)) ->
  forall j, fst (compute_approximate_prices solve M O O observed costs) j = var0 M j.
Proof. exact approximate_prices_roundtrip. Qed.
Print Assumptions C12_approximate_prices_roundtrip.

Example C12_applies :
  let M := flat_market 1 (fun _ => 1) in
  valid_market (fm M) /\ good_columns M (var0 M) /\ exact_solver (mJ (fm M)) scalar_solver /\
  shares_at M (var0 M) 0 = / 2 /\
  snd (compute_costs scalar_solver M (fun _ _ => 1) (shares_at M (var0 M))) = false.
Proof.
  cbv zeta. split; [apply flat_valid; lia|]. split; [apply flat_good|]. split; [apply scalar_solver_exact|].
  assert (HS : shares_at (flat_market 1 (fun _ => 1)) (fun _ => 0) 0 = / (1 + INR 1)) by (apply flat_shares; lia).
  change (var0 (flat_market 1 (fun _ => 1))) with (fun _ : nat => 0).
  split; [rewrite HS; simpl; lra|].
  unfold compute_costs, compute_eta, scalar_solver. cbn [snd].
  rewrite capital_delta_jacobian. change (var0 (flat_market 1 (fun _ => 1))) with (fun _ : nat => 0).
  rewrite flat_jacobian by lia. simpl.
  destruct (Req_EM_T _ 0) as [E|E]; [|reflexivity]. exfalso. lra.
Qed.

(** C13: with symmetric ownership and ones on its diagonal, the fixed points of the contraction behind
    compute_prices are exactly the Bertrand equilibria. *)
Theorem C13_fixed_point_iff_bertrand :
  forall M O costs x,
  valid_market (fm M) -> good_columns M x ->
  (forall j k, (j < mJ (fm M))%nat -> (k < mJ (fm M))%nat -> O j k = O k j) ->
  (forall j, (j < mJ (fm M))%nat -> O j j = 1) ->
  (0 < fI M)%nat -> (forall i, (i < fI M)%nat -> 0 < fw M i) ->
  (forall i j, (i < fI M)%nat -> (j < mJ (fm M))%nat -> utility_derivatives M false x i j < 0) ->
  (forall j, (j < mJ (fm M))%nat -> price_contraction M O costs x j = x j) <->
  bertrand (mJ (fm M)) O costs (shares_at M) x.
Proof. exact contraction_fixed_iff_bertrand. Qed.
Print Assumptions C13_fixed_point_iff_bertrand.

(** C13: the weighted change on which termination is based is the gradient of profits. *)
Theorem C13_termination_is_profit_gradient :
  forall M O costs x j,
  valid_market (fm M) -> good_columns M x ->
  (forall j k, (j < mJ (fm M))%nat -> (k < mJ (fm M))%nat -> O j k = O k j) ->
  (forall j, (j < mJ (fm M))%nat -> O j j = 1) -> (j < mJ (fm M))%nat -> lamda_at M x j <> 0 ->
  exists g, derivable_pt_lim (fun t => weighted_profit (mJ (fm M)) O costs (shares_at M) (upd x j t) j) (x j) g /\
    price_weights M x j * Rabs (price_contraction M O costs x j - x j) = Rabs g.
Proof. exact termination_is_gradient. Qed.
Print Assumptions C13_termination_is_profit_gradient.

(** C13 fails when cooperation is asymmetric: costs recovered by compute_costs do not lead back to
    observed prices. *)
Theorem C13_asymmetric_ownership_refuted :
  exists M O costs x,
    valid_market (fm M) /\ good_columns M x /\
    (forall j, (j < mJ (fm M))%nat -> O j j = 1) /\
    (forall j, (j < mJ (fm M))%nat -> lamda_at M x j < 0) /\
    markup_equation (mJ (fm M)) O (shares_jacobian M x) (shares_at M x) (fun j => x j - costs j) /\
    ~ (forall j, (j < mJ (fm M))%nat -> price_contraction M O costs x j = x j).
Proof. exact zeta_asymmetric_refuted. Qed.
Print Assumptions C13_asymmetric_ownership_refuted.

(** C13 also fails for symmetric ownership without ones on the diagonal. *)
Theorem C13_diagonal_ownership_refuted :
  exists M O costs x,
    valid_market (fm M) /\ good_columns M x /\
    (forall j k, O j k = O k j) /\
    (forall j, (j < mJ (fm M))%nat -> lamda_at M x j < 0) /\
    markup_equation (mJ (fm M)) O (shares_jacobian M x) (shares_at M x) (fun j => x j - costs j) /\
    ~ (forall j, (j < mJ (fm M))%nat -> price_contraction M O costs x j = x j).
Proof. exact zeta_diagonal_refuted. Qed.
Print Assumptions C13_diagonal_ownership_refuted.

Example C13_applies :
  let M := flat_market 2 (fun _ => 1) in
  valid_market (fm M) /\ good_columns M (var0 M) /\ (0 < fI M)%nat /\ (forall i, 0 < fw M i) /\
  (forall x i j, utility_derivatives M false x i j < 0) /\
  (forall j, (j < 2)%nat -> lamda_at M (fun _ => 0) j <> 0).
Proof.
  cbv zeta. split; [apply flat_valid; lia|]. split; [apply flat_good|]. split; [simpl; lia|].
  split; [simpl; intros; lra|]. split; [intros; rewrite flat_derivative; lra|].
  intros j Hj. rewrite flat_lamda by assumption. simpl. lra.
Qed.

(** C14: the reported Jacobian of shares with respect to any variable is the exact matrix of partial
    derivatives, with or without nesting. *)
Theorem C14_jacobian_is_derivative :
  forall M x, valid_market (fm M) -> good_columns M x ->
  is_jacobian (mJ (fm M)) (shares_at M) x (shares_jacobian M x).
Proof. exact jacobian_exact. Qed.
Print Assumptions C14_jacobian_is_derivative.

Example C14_applies : exists M, valid_market (fm M) /\ good_columns M (var0 M) /\ (1 < mJ (fm M))%nat.
Proof. exists (flat_market 2 twice). split; [apply flat_valid; lia|]. split; [apply flat_good|simpl; lia]. Qed.

(** Also with log(prices), at positive prices. *)
Example C14_applies_logs :
  let M := mk_full_market (mk_market 2 0 (fun _ => O) false (fun _ => 0) 1) 1 (fun _ => 1)
    1 (fun _ => mk_column true (fun _ x => ln x) (fun _ x => / x) (fun _ x => - / (x * x))) (fun _ => - (1))
    0 (fun _ => mk_column false (fun _ _ => 0) (fun _ _ => 0) (fun _ _ => 0)) (fun _ _ _ => 0)
    (fun _ => 1) (fun _ => 0) (fun _ _ => 0) in
  valid_market (fm M) /\ good_columns M (fun j => 1 + INR j).
Proof.
  split; [constructor; simpl; try lra; try lia; try contradiction; intros; try reflexivity|].
  split; intros k j Hu Hk Hj; [|simpl in Hk; lia]. cbn. apply derivable_pt_lim_ln. assert (H := pos_INR j). lra.
Qed.

(** C15 fails: compute_prices never reports that the iteration did not converge. *)
Theorem C15_nonconvergence_refuted :
  exists stats, st_converged stats = false /\
    forall bad, ~ In EquilibriumPricesConvergenceError (compute_prices_errors bad stats).
Proof. exact prices_nonconvergence_refuted. Qed.
Print Assumptions C15_nonconvergence_refuted.

(** C15 holds for the equilibria solved by bootstrap, optimal instruments and simulations. *)
Theorem C15_realizations_report :
  forall stats, In EquilibriumPricesConvergenceError (realization_errors stats) <-> st_converged stats = false.
Proof. exact realization_reports. Qed.
Print Assumptions C15_realizations_report.

(** C16: rows of diversion ratios sum to one. *)
Theorem C16_rows_sum_to_one :
  forall J jac j, (j < J)%nat -> jac j j <> 0 -> sumn J (diversion_ratios J jac j) = 1.
Proof. exact diversion_rows. Qed.
Print Assumptions C16_rows_sum_to_one.

(** C16: they match their definition when each agent's marginal utility is common to all products
    (prices entering utility linearly without product interactions). *)
Theorem C16_matches_definition :
  forall M j k,
  valid_market (fm M) -> good_columns M (var0 M) ->
  (forall i a b, (i < fI M)%nat -> (a < mJ (fm M))%nat -> (b < mJ (fm M))%nat ->
     utility_derivatives M false (var0 M) i a = utility_derivatives M false (var0 M) i b) ->
  (j < mJ (fm M))%nat -> (k < mJ (fm M))%nat ->
  exists D, is_jacobian (mJ (fm M)) (shares_at M) (var0 M) D /\
    diversion_ratios (mJ (fm M)) (shares_jacobian M (var0 M)) j k = diversion (mJ (fm M)) D j k.
Proof. exact diversion_matches. Qed.
Print Assumptions C16_matches_definition.

(** C16 fails otherwise: the transpose of the documented derivative is used. *)
Theorem C16_definition_refuted :
  exists M j k, valid_market (fm M) /\ good_columns M (var0 M) /\ (j < mJ (fm M))%nat /\ (k < mJ (fm M))%nat /\
    shares_jacobian M (var0 M) j j < 0 /\
    diversion_ratios (mJ (fm M)) (shares_jacobian M (var0 M)) j k
    <> diversion (mJ (fm M)) (shares_jacobian M (var0 M)) j k.
Proof. exact diversion_refuted. Qed.
Print Assumptions C16_definition_refuted.

Example C16_applies :
  let M := flat_market 2 (fun _ => 1) in
  (forall i a b, utility_derivatives M false (var0 M) i a = utility_derivatives M false (var0 M) i b) /\
  shares_jacobian M (var0 M) 0 0 <> 0.
Proof.
  cbv zeta. split; [intros; rewrite !flat_derivative; reflexivity|].
  change (var0 (flat_market 2 (fun _ => 1))) with (fun _ : nat => 0).
  rewrite flat_jacobian by lia. simpl. lra.
Qed.

(** C59: elasticities with respect to a named variable match their definition. *)
Theorem C59_elasticities_exact :
  forall M observed j k,
  valid_market (fm M) -> good_columns M (var0 M) -> (j < mJ (fm M))%nat -> (k < mJ (fm M))%nat ->
  observed j <> 0 ->
  exists D, derivable_pt_lim (fun t => shares_at M (upd (var0 M) k t) j) (var0 M k) D /\
    elasticities M observed j k = var0 M k / observed j * D.
Proof. exact elasticities_exact. Qed.
Print Assumptions C59_elasticities_exact.

(** C59: so do elasticities with respect to mean utilities, if the epsilon scale is one. *)
Theorem C59_delta_elasticities_exact :
  forall m a delta observed j k,
  valid_market m -> eps_scale m = 1 -> (j < mJ m)%nat -> (k < mJ m)%nat -> observed j <> 0 ->
  exists D, derivable_pt_lim (fun t => market_shares m a true (upd delta k t) j) (delta k) D /\
    delta_elasticities m a delta observed j k = delta k / observed j * D.
Proof. exact delta_elasticities_exact. Qed.
Print Assumptions C59_delta_elasticities_exact.

(** C59 fails for mean utilities under any other epsilon scale. *)
Theorem C59_delta_elasticities_refuted :
  exists m a delta D, valid_market m /\
    (forall j, (j < mJ m)%nat -> 0 < market_shares m a true delta j) /\
    derivable_pt_lim (fun t => market_shares m a true (upd delta 0 t) 0) (delta O) D /\
    delta_elasticities m a delta (market_shares m a true delta) 0 0
    <> delta O / market_shares m a true delta 0 * D.
Proof. exact delta_elasticities_refuted. Qed.
Print Assumptions C59_delta_elasticities_refuted.

Example C59_applies :
  let M := flat_market 2 twice in
  valid_market (fm M) /\ good_columns M (var0 M) /\ shares_at M (var0 M) 1 <> 0.
Proof.
  cbv zeta. split; [apply flat_valid; lia|]. split; [apply flat_good|].
  change (var0 (flat_market 2 twice)) with (fun _ : nat => 0). rewrite flat_shares by lia. simpl. lra.
Qed.

(** C65: the reported derivatives of profits are exact. *)
Theorem C65_profit_jacobian :
  forall M costs x j k,
  valid_market (fm M) -> good_columns M x -> (j < mJ (fm M))%nat -> (k < mJ (fm M))%nat ->
  derivable_pt_lim (fun t => (upd x k t j - costs j) * shares_at M (upd x k t) j) (x k)
    (profit_jacobian M costs x j k).
Proof. exact profit_jacobian_derivative. Qed.
Print Assumptions C65_profit_jacobian.
