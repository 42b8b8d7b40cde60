(** Property C164: demand without income effects is that of consumers with a convex surplus. *)
From Coq Require Import Reals Lra Lia List Bool Arith.
From Verif Require Import Base DemandSpec DemandModel DemandProofs DemandShares DemandDeriv
  SupplyModel SupplySpec SupplyProofs WelfareModel WelfareSpec WelfareProofs LawSpec LawProofs.
Import ListNotations.
Local Open Scope R_scope.

(** C164: when each agent's utility falls in own prices at a rate that is the same for all products (agents may differ, and there
    may be nests), shares move against prices on average, however large changes of prices are and whatever agents can choose from. *)
Theorem C164_law_of_demand :
  forall M avail mask a,
  valid_market (fm M) -> (forall i, (i < fI M)%nat -> 0 < a i) -> (forall i, (i < fI M)%nat -> 0 <= fw M i) ->
  (forall i, (i < fI M)%nat -> quasilinear (mJ (fm M)) (price_utility M i) (a i)) ->
  obeys_law (mJ (fm M)) (limited_shares M avail mask) /\ obeys_law (mJ (fm M)) (shares_at M).
Proof.
  intros M avail mask a V Ha Hw Hq. split; [exact (law_of_demand M avail mask a V Ha Hw Hq)|exact (shares_law M a V Ha Hw Hq)].
Qed.
Print Assumptions C164_law_of_demand.

(** C164: strictly so, if some agent has weight. *)
Theorem C164_strict :
  forall M a,
  valid_market (fm M) -> (forall i, (i < fI M)%nat -> 0 < a i) -> (forall i, (i < fI M)%nat -> 0 <= fw M i) ->
  (forall i, (i < fI M)%nat -> quasilinear (mJ (fm M)) (price_utility M i) (a i)) ->
  (exists i, (i < fI M)%nat /\ 0 < fw M i) ->
  obeys_law_strictly (mJ (fm M)) (shares_at M).
Proof. exact shares_law_strict. Qed.
Print Assumptions C164_strict.

(** C164: so shares determine prices; raising one price lowers the product's share; and raising all prices by the same amount
    lowers the total of shares. *)
Theorem C164_prices_from_shares :
  forall M a,
  valid_market (fm M) -> (forall i, (i < fI M)%nat -> 0 < a i) -> (forall i, (i < fI M)%nat -> 0 <= fw M i) ->
  (forall i, (i < fI M)%nat -> quasilinear (mJ (fm M)) (price_utility M i) (a i)) ->
  (exists i, (i < fI M)%nat /\ 0 < fw M i) ->
  (forall x x', (forall j, (j < mJ (fm M))%nat -> shares_at M x' j = shares_at M x j) ->
     forall j, (j < mJ (fm M))%nat -> x' j = x j) /\
  (forall x j t, (j < mJ (fm M))%nat -> x j < t -> shares_at M (upd x j t) j < shares_at M x j) /\
  (forall x t, 0 < t -> sumn (mJ (fm M)) (shares_at M (fun j => x j + t)) < sumn (mJ (fm M)) (shares_at M x)).
Proof.
  intros M a V Ha Hw Hq He. assert (L := shares_law_strict M a V Ha Hw Hq He). split; [|split].
  - exact (strict_injective _ _ L).
  - exact (strict_own _ _ L).
  - exact (strict_uniform _ _ L (vm_J _ V)).
Qed.
Print Assumptions C164_prices_from_shares.

(** C164: without any condition on prices, shares move with mean utilities on average. *)
Theorem C164_mean_utilities :
  forall m a delta delta',
  valid_market m -> (forall i, (i < aI a)%nat -> 0 <= aw a i) -> (exists i, (i < aI a)%nat /\ 0 < aw a i) ->
  (exists j, (j < mJ m)%nat /\ delta' j <> delta j) ->
  0 < sumn (mJ m) (fun j => (delta' j - delta j) * (market_shares m a true delta' j - market_shares m a true delta j)).
Proof. exact delta_monotone. Qed.
Print Assumptions C164_mean_utilities.

(** C164: computed Jacobians are symmetric, and their quadratic forms are never positive. *)
Theorem C164_jacobian :
  forall M a x,
  valid_market (fm M) -> good_columns M x ->
  (forall i, (i < fI M)%nat -> 0 < a i) -> (forall i, (i < fI M)%nat -> 0 <= fw M i) ->
  (forall i, (i < fI M)%nat -> quasilinear (mJ (fm M)) (price_utility M i) (a i)) ->
  (forall j k, (j < mJ (fm M))%nat -> (k < mJ (fm M))%nat -> shares_jacobian M x j k = shares_jacobian M x k j) /\
  (forall v, quadratic (mJ (fm M)) (shares_jacobian M x) v <= 0).
Proof.
  intros M a x V G Ha Hw Hq. split.
  - intros j k Hj Hk. exact (quasilinear_symmetric M a x j k V G Hq Hj Hk).
  - intros v. exact (jacobian_definite M a x v V G Ha Hw Hq).
Qed.
Print Assumptions C164_jacobian.

(** C164: so computed diversion ratios are those of the definition, and sales that one product loses to another per unit of price
    are those that the other would lose to it. *)
Theorem C164_diversion :
  forall M a x j k,
  valid_market (fm M) -> good_columns M x ->
  (forall i, (i < fI M)%nat -> quasilinear (mJ (fm M)) (price_utility M i) (a i)) ->
  (j < mJ (fm M))%nat -> (k < mJ (fm M))%nat ->
  shares_jacobian M x j j <> 0 -> shares_jacobian M x k k <> 0 ->
  let ratio := diversion_ratios (mJ (fm M)) (shares_jacobian M x) in
  ratio j k = diversion (mJ (fm M)) (shares_jacobian M x) j k /\
  (j <> k -> ratio j k * shares_jacobian M x j j = ratio k j * shares_jacobian M x k k).
Proof.
  intros M a x j k V G Hq Hj Hk Nj Nk ratio.
  assert (Y : forall b c, (b < mJ (fm M))%nat -> (c < mJ (fm M))%nat -> shares_jacobian M x b c = shares_jacobian M x c b)
    by (intros b c Hb Hc; exact (quasilinear_symmetric M a x b c V G Hq Hb Hc)).
  split; [exact (diversion_symmetric _ _ j k Y Hj Hk)|]. intros N. unfold ratio, diversion_ratios.
  rewrite (Nat.eqb_sym k j). destruct (Nat.eqb_spec j k) as [|_]; [contradiction|]. rewrite (Y j k Hj Hk). field. split; assumption.
Qed.
Print Assumptions C164_diversion.

(** C164: when prices change from x to x', consumer surplus falls by no more than what goods bought at x cost more at x', and by
    no less than what goods bought at x' cost more than at x. *)
Theorem C164_surplus :
  forall M avail mask a,
  valid_market (fm M) -> (forall i, (i < fI M)%nat -> 0 < a i) -> (forall i, (i < fI M)%nat -> 0 <= fw M i) ->
  (forall i, (i < fI M)%nat -> quasilinear (mJ (fm M)) (price_utility M i) (a i)) ->
  good_columns M (var0 M) -> eps_scale (fm M) = 1 ->
  forall x x',
  let surplus := consumer_surplus M (fun i => option_map (fun b j => indR (b j)) (avail i)) mask in
  let bought := limited_shares M avail mask in
  extra_cost (mJ (fm M)) (bought x') x x' <= surplus x - surplus x' <= extra_cost (mJ (fm M)) (bought x) x x'.
Proof.
  intros M avail mask a V Ha Hw Hq G E1 x x' surplus bought.
  assert (A := surplus_above M avail mask a V Ha Hw Hq G E1 x x'). assert (B := surplus_below M avail mask a V Ha Hw Hq G E1 x x').
  unfold surplus, bought. lra.
Qed.
Print Assumptions C164_surplus.

(** C164: consumers gain from variation of prices: surplus at an average of prices is no more than the average of surpluses. *)
Theorem C164_variation :
  forall M avail mask a,
  valid_market (fm M) -> (forall i, (i < fI M)%nat -> 0 < a i) -> (forall i, (i < fI M)%nat -> 0 <= fw M i) ->
  (forall i, (i < fI M)%nat -> quasilinear (mJ (fm M)) (price_utility M i) (a i)) ->
  good_columns M (var0 M) -> eps_scale (fm M) = 1 ->
  forall x x' t, 0 <= t <= 1 ->
  let surplus := consumer_surplus M (fun i => option_map (fun b j => indR (b j)) (avail i)) mask in
  surplus (fun j => (1 - t) * x j + t * x' j) <= (1 - t) * surplus x + t * surplus x'.
Proof. exact surplus_convex. Qed.
Print Assumptions C164_variation.

(** Two products in a nest and two agents, one of whom dislikes higher prices twice as much. *)
Definition averse_market : full_market :=
  mk_full_market (mk_market 2 1 (fun _ => O) false (fun _ => / 2) 1) 2 (fun _ => / 2)
    1 (fun _ => mk_column true (fun j x => x) (fun j x => 1) (fun j x => 0)) (fun _ => - (1))
    1 (fun _ => mk_column true (fun j x => x) (fun j x => 1) (fun j x => 0)) (fun _ _ i => - INR i)
    (fun _ => 0) (fun _ => 0) (fun _ _ => 0).

Example C164_applies :
  valid_market (fm averse_market) /\ (forall x, good_columns averse_market x) /\ eps_scale (fm averse_market) = 1 /\
  (forall i, (i < 2)%nat -> 0 < 1 + INR i /\ 0 < fw averse_market i /\
     quasilinear 2 (price_utility averse_market i) (1 + INR i)) /\
  shares_at averse_market (fun j => INR j) 1 < shares_at averse_market (fun _ => 0) 1.
Proof.
  assert (V : valid_market (fm averse_market)).
  { constructor; simpl; try lra; try lia; intros; try reflexivity; try lra; try lia. }
  assert (Q : forall i, (i < 2)%nat -> 0 < 1 + INR i /\ 0 < fw averse_market i /\ quasilinear 2 (price_utility averse_market i) (1 + INR i)).
  { intros i Hi. assert (P := pos_INR i). split; [lra|]. split; [simpl; lra|].
    intros x x' j Hj. unfold price_utility, update_delta, update_mu, compute_mu. simpl. ring. }
  assert (G : forall x, good_columns averse_market x).
  { intros x. split; intros k j _ _ _; simpl; apply dlim_id. }
  split; [exact V|]. split; [exact G|]. split; [reflexivity|]. split; [exact Q|].
  assert (L := shares_law_strict averse_market (fun i => 1 + INR i) V (fun i Hi => proj1 (Q i Hi))
                 (fun i Hi => Rlt_le _ _ (proj1 (proj2 (Q i Hi)))) (fun i Hi => proj2 (proj2 (Q i Hi)))
                 (ex_intro _ O (conj (Nat.lt_0_succ 1) (proj1 (proj2 (Q O (Nat.lt_0_succ 1))))))).
  assert (A := L (fun _ => 0) (fun j => INR j) (ex_intro _ 1%nat (conj (Nat.lt_succ_diag_r 1) R1_neq_R0))).
  change (mJ (fm averse_market)) with 2%nat in A. cbn [sumn INR] in A. lra.
Qed.

(** C164: this needs the same rate for all products.  When an agent's utility falls at different rates in prices of different
    products (as when prices are interacted with characteristics, or enter as logarithms), shares can move with prices on
    average, and Jacobians are not symmetric, although every product's utility falls in its own price. *)
Theorem C164_same_rates_needed :
  exists M rates x, valid_market (fm M) /\ good_columns M x /\ (forall j, 0 < rates j) /\
  (forall i y y' j, price_utility M i y' j - price_utility M i y j = - rates j * (y' j - y j)) /\
  ~ obeys_law (mJ (fm M)) (shares_at M) /\
  exists j k, (j < mJ (fm M))%nat /\ (k < mJ (fm M))%nat /\ shares_jacobian M x j k <> shares_jacobian M x k j.
Proof.
  exists unlike_market, unlike_rates, (fun _ => 0). split; [apply flat_valid; lia|]. split; [apply flat_good|].
  split; [exact unlike_rates_pos|]. split.
  { intros i y y' j. unfold price_utility, update_delta, update_mu, compute_mu. simpl. ring. }
  split; [exact unlike_against|]. exists 0%nat, 1%nat.
  split; [simpl; lia|]. split; [simpl; lia|]. exact unlike_asymmetric.
Qed.
Print Assumptions C164_same_rates_needed.
