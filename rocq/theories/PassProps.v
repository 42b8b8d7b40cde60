(** Properties of the pass-through matrix. *)
From Coq Require Import Reals Lra Lia List Bool Arith.
From Verif Require Import Base DemandSpec DemandModel DemandProofs DemandShares DemandDeriv
  SupplyModel SupplySpec SupplyProofs DerivModel DerivProofs DerivMore PassModel PassSpec PassProofs.
Local Open Scope R_scope.

(** C60: if prices enter every agent's utility with a coefficient common to all products, the reported
    matrix maps every infinitesimal change in costs to the change in Bertrand prices. *)
Theorem C60_passthrough_common_coefficient :
  forall invert M O observed r,
  valid_market (fm M) -> 0 < r -> (forall y, near (mJ (fm M)) r (var0 M) y -> good_columns M y) ->
  twice_differentiable M (var0 M) ->
  exact_inverter (mJ (fm M)) invert ->
  (forall j, (j < mJ (fm M))%nat -> O j j = 1) ->
  (forall x i a b, near (mJ (fm M)) r (var0 M) x -> (i < fI M)%nat -> (a < mJ (fm M))%nat -> (b < mJ (fm M))%nat ->
     utility_derivatives M false x i a = utility_derivatives M false x i b) ->
  (forall j, (j < mJ (fm M))%nat -> observed j = shares_at M (var0 M) j) ->
  pt_intra_firm_error (compute_passthrough invert M O observed) = false ->
  pt_inversion_error (compute_passthrough invert M O observed) = false ->
  is_passthrough (mJ (fm M)) O (shares_at M) (var0 M) (pt_matrix (compute_passthrough invert M O observed)).
Proof. exact passthrough_common. Qed.
Print Assumptions C60_passthrough_common_coefficient.

(** C60: also for single-product firms, however prices enter utility. *)
Theorem C60_passthrough_single_product_firms :
  forall invert M O observed r,
  valid_market (fm M) -> 0 < r -> (forall y, near (mJ (fm M)) r (var0 M) y -> good_columns M y) ->
  twice_differentiable M (var0 M) ->
  exact_inverter (mJ (fm M)) invert ->
  (forall j k, (j < mJ (fm M))%nat -> (k < mJ (fm M))%nat -> O j k = if Nat.eqb j k then 1 else 0) ->
  (forall j, (j < mJ (fm M))%nat -> observed j = shares_at M (var0 M) j) ->
  pt_intra_firm_error (compute_passthrough invert M O observed) = false ->
  pt_inversion_error (compute_passthrough invert M O observed) = false ->
  is_passthrough (mJ (fm M)) O (shares_at M) (var0 M) (pt_matrix (compute_passthrough invert M O observed)).
Proof. exact passthrough_single. Qed.
Print Assumptions C60_passthrough_single_product_firms.

(** C60 fails in general: with a multi-product firm and marginal utilities of price that differ across
    its products, the Jacobian and Hessian are used untransposed. *)
Theorem C60_passthrough_refuted :
  exists invert M O,
    valid_market (fm M) /\ (forall x, good_columns M x) /\ (forall x, twice_differentiable M x) /\ exact_inverter (mJ (fm M)) invert /\
    (forall j k, O j k = 1) /\
    let X := compute_passthrough invert M O (shares_at M (var0 M)) in
    pt_intra_firm_error X = false /\ pt_inversion_error X = false /\
    ~ is_passthrough (mJ (fm M)) O (shares_at M) (var0 M) (pt_matrix X).
Proof. exact passthrough_refuted. Qed.
Print Assumptions C60_passthrough_refuted.

(** A two-product monopolist facing logit demand. *)
Example C60_applies :
  let M := flat_market 2 (fun _ => 1) in
  let X := compute_passthrough two_inverter M (fun _ _ => 1) (shares_at M (var0 M)) in
  valid_market (fm M) /\ (forall x, good_columns M x) /\ (forall x, twice_differentiable M x) /\ exact_inverter (mJ (fm M)) two_inverter /\
  (forall x i a b, utility_derivatives M false x i a = utility_derivatives M false x i b) /\
  pt_intra_firm_error X = false /\ pt_inversion_error X = false.
Proof. exact flat2_no_errors. Qed.
