(** Property theorems about demand and consumer surplus at other prices: C140. *)
From Coq Require Import Reals Lra Lia List Bool Arith.
From Verif Require Import Base DemandModel DemandProofs DemandDeriv SupplyModel SupplySpec SupplyProofs WelfareModel WelfareSpec WelfareProofs EndoProofs.
From Verif Require Import SlopeProofs SlopeConvex.
Import ListNotations.
Local Open Scope R_scope.

(** C140: if one price is higher, the product's share is smaller, shares of all other products are larger,
    and more people choose the outside good, however large the difference between prices is. *)
Theorem C140_one_price :
  forall M x k s t,
  valid_market (fm M) -> (forall y, good_columns M y) -> (forall y, price_averse M y) ->
  (k < mJ (fm M))%nat -> s < t ->
  shares_at M (upd x k t) k < shares_at M (upd x k s) k /\
  (forall j, (j < mJ (fm M))%nat -> j <> k -> shares_at M (upd x k s) j < shares_at M (upd x k t) j) /\
  sumn (mJ (fm M)) (shares_at M (upd x k t)) < sumn (mJ (fm M)) (shares_at M (upd x k s)).
Proof.
  intros M x k s t V G P Hk L. split; [exact (own_falls M V G P x k s t Hk L)|]. split.
  - intros j Hj N. exact (others_rise M V G P x j k s t Hj Hk N L).
  - exact (total_falls M V G P x k s t Hk L).
Qed.
Print Assumptions C140_one_price.

(** C140: if no price is lower and some price is higher, more people choose the outside good, and products
    with unchanged prices have larger shares. *)
Theorem C140_many_prices :
  forall M x y,
  valid_market (fm M) -> (forall y, good_columns M y) -> (forall y, price_averse M y) ->
  (forall k, (k < mJ (fm M))%nat -> x k <= y k) -> (exists k, (k < mJ (fm M))%nat /\ x k < y k) ->
  sumn (mJ (fm M)) (shares_at M y) < sumn (mJ (fm M)) (shares_at M x) /\
  (forall j, (j < mJ (fm M))%nat -> x j = y j -> shares_at M x j < shares_at M y j).
Proof.
  intros M x y V G P H E. split; [exact (proj2 (total_monotone M V G P x y H) E)|].
  intros j Hj Ej. exact (proj2 (others_monotone M V G P x y j H Hj Ej) E).
Qed.
Print Assumptions C140_many_prices.

(** C140: without income effects, the change in consumer surplus is between changes in what the chosen
    products would cost at the old and at the new choices. *)
Theorem C140_surplus_bounds :
  forall M a x y,
  valid_market (fm M) -> (forall y, good_columns M y) -> eps_scale (fm M) = 1 ->
  (forall i, (i < fI M)%nat -> 0 <= fw M i) -> (forall i, (i < fI M)%nat -> 0 < a i) ->
  (forall i, (i < fI M)%nat -> no_income_effects (mJ (fm M)) (price_utility M i) (a i)) ->
  sumn (mJ (fm M)) (fun j => shares_at M y j * (y j - x j))
  <= consumer_surplus M (fun _ => None) None x - consumer_surplus M (fun _ => None) None y
  <= sumn (mJ (fm M)) (fun j => shares_at M x j * (y j - x j)).
Proof. intros M a x y V G E W A H. exact (surplus_two_bounds M a V G E W A H x y). Qed.
Print Assumptions C140_surplus_bounds.

(** C140: and shares change against prices. *)
Theorem C140_law_of_demand :
  forall M a x y,
  valid_market (fm M) -> (forall y, good_columns M y) -> eps_scale (fm M) = 1 ->
  (forall i, (i < fI M)%nat -> 0 <= fw M i) -> (forall i, (i < fI M)%nat -> 0 < a i) ->
  (forall i, (i < fI M)%nat -> no_income_effects (mJ (fm M)) (price_utility M i) (a i)) ->
  sumn (mJ (fm M)) (fun j => (y j - x j) * (shares_at M y j - shares_at M x j)) <= 0.
Proof. intros M a x y V G E W A H. exact (law_of_demand M a V G E W A H x y). Qed.
Print Assumptions C140_law_of_demand.

(** C140: higher prices lower consumer surplus. *)
Theorem C140_surplus_falls :
  forall M a x y,
  valid_market (fm M) -> (forall y, good_columns M y) -> (forall y, price_averse M y) -> eps_scale (fm M) = 1 ->
  (forall i, (i < fI M)%nat -> a i <> 0) ->
  (forall i, (i < fI M)%nat -> no_income_effects (mJ (fm M)) (price_utility M i) (a i)) ->
  (forall k, (k < mJ (fm M))%nat -> x k <= y k) -> (exists k, (k < mJ (fm M))%nat /\ x k < y k) ->
  consumer_surplus M (fun _ => None) None y < consumer_surplus M (fun _ => None) None x.
Proof. intros M a x y V G P E A H L X. exact (proj2 (surplus_monotone M V G P a E A H x y L) X). Qed.
Print Assumptions C140_surplus_falls.

(** Two products and prices that everyone dislikes, without income effects. *)
Example C140_applies :
  let M := flat_market 2 (fun _ => 1) in
  valid_market (fm M) /\ (forall y, good_columns M y) /\ (forall y, price_averse M y) /\ eps_scale (fm M) = 1 /\
  (forall i, (i < fI M)%nat -> 0 <= fw M i) /\
  (forall i, (i < fI M)%nat -> no_income_effects (mJ (fm M)) (price_utility M i) 1) /\
  shares_at M (fun _ => 0) 0 = / 3.
Proof.
  cbv zeta. split; [apply flat_valid; lia|]. split; [intros y; apply flat_good|].
  split; [intros y; apply flat_averse; intros; lra|]. split; [reflexivity|].
  split; [intros i Hi; left; destruct (flat_averse 2 (fun _ => 1) ltac:(intros; lra) (fun _ => 0)) as [_ [W _]]; apply W; exact Hi|].
  split; [|rewrite flat_shares by lia; cbn [INR]; lra].
  intros i _ x k j Hj Hk.
  apply dlim_ext with (fun t => if Nat.eqb j k then 0 - t else - x j).
  - intros t. unfold price_utility, update_delta, update_mu, compute_mu, flat_market. cbn. unfold upd. destruct (Nat.eqb j k); ring.
  - destruct (Nat.eqb_spec j k) as [E|N].
    + eapply dlim_eq; [|apply (dlim_minus (fun _ => 0) (fun t => t)); [apply dlim_const|apply dlim_id]]. ring.
    + apply dlim_const.
Qed.
