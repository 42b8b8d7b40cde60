(** Properties of markups and profits, and how they relate to elasticities and ownership.  Proofs are in
    LernerProofs.v. *)
From Coq Require Import Reals Lra Lia List Bool Arith.
From Verif Require Import Base DemandSpec DemandModel DemandProofs DemandShares DemandDeriv
  SupplyModel SupplySpec SupplyProofs EndoSpec EndoProofs BasicsModel WelfareModel LernerProofs.
Local Open Scope R_scope.

(** C116: the markup of a product that is its firm's only one is minus its inverse own-price elasticity, ... *)
Theorem C116_single_product :
  forall solve M O observed j,
  exact_solver (mJ (fm M)) solve -> snd (compute_costs solve M O observed) = false ->
  (j < mJ (fm M))%nat -> O j j = 1 -> (forall k, (k < mJ (fm M))%nat -> k <> j -> O j k = 0) ->
  observed j <> 0 -> var0 M j <> 0 ->
  markups (var0 M) (fst (compute_costs solve M O observed)) j * elasticities M observed j j = - (1).
Proof. exact single_product. Qed.
Print Assumptions C116_single_product.

(** ... in general, markups weighted by revenues and by elasticities with respect to a price add up to minus the
    revenue of the product with that price, ... *)
Theorem C116_revenue_equation :
  forall solve M O observed j,
  exact_solver (mJ (fm M)) solve -> snd (compute_costs solve M O observed) = false ->
  (forall k, (k < mJ (fm M))%nat -> observed k <> 0 /\ var0 M k <> 0) -> (j < mJ (fm M))%nat ->
  sumn (mJ (fm M)) (fun k => O j k * elasticities M observed k j
    * (markups (var0 M) (fst (compute_costs solve M O observed)) k * (var0 M k * observed k))) = - (var0 M j * observed j).
Proof. exact revenue_equation. Qed.
Print Assumptions C116_revenue_equation.

(** ... and profits are markups times revenues. *)
Theorem C116_profits :
  forall prices shares costs j, prices j <> 0 ->
  profits prices shares costs j = markups prices costs j * (prices j * shares j) /\
  prices j * (1 - markups prices costs j) = costs j.
Proof. intros. unfold profits, markups. split; field; assumption. Qed.
Print Assumptions C116_profits.

(** If everyone dislikes higher prices, recovered costs are below prices under every ownership matrix with
    cooperation between zero and one, so that profits are positive, ... *)
Theorem C116_positive_margins :
  forall solve M O observed j,
  valid_market (fm M) -> price_averse M (var0 M) -> cooperation (mJ (fm M)) O -> exact_solver (mJ (fm M)) solve ->
  snd (compute_costs solve M O observed) = false -> (forall k, (k < mJ (fm M))%nat -> 0 < observed k) ->
  (j < mJ (fm M))%nat ->
  fst (compute_costs solve M O observed) j < var0 M j /\
  0 < profits (var0 M) observed (fst (compute_costs solve M O observed)) j /\
  (0 < var0 M j -> 0 < markups (var0 M) (fst (compute_costs solve M O observed)) j).
Proof.
  intros solve M O observed j V PA C S E P Hj.
  assert (L := margins_positive solve M O observed j V PA C S E P Hj). assert (Q := P j Hj).
  split; [exact L|]. unfold profits, markups. split; [apply Rmult_lt_0_compat; lra|].
  intros Hp. apply Rdiv_lt_0_compat; lra.
Qed.
Print Assumptions C116_positive_margins.

(** ... markups are at least minus inverse own-price elasticities, and above them if the firm sells other products, ... *)
Theorem C116_elasticity_bound :
  forall solve M O observed j,
  valid_market (fm M) -> price_averse M (var0 M) -> cooperation (mJ (fm M)) O -> exact_solver (mJ (fm M)) solve ->
  snd (compute_costs solve M O observed) = false -> (forall k, (k < mJ (fm M))%nat -> 0 < observed k) ->
  (j < mJ (fm M))%nat -> 0 < var0 M j ->
  elasticities M observed j j < 0 /\
  - / elasticities M observed j j <= markups (var0 M) (fst (compute_costs solve M O observed)) j /\
  ((exists k, (k < mJ (fm M))%nat /\ k <> j /\ 0 < O j k) ->
   - / elasticities M observed j j < markups (var0 M) (fst (compute_costs solve M O observed)) j).
Proof. exact elasticity_bound. Qed.
Print Assumptions C116_elasticity_bound.

(** ... assuming more cooperation never raises a cost, ... *)
Theorem C116_cooperation_lowers_costs :
  forall solve M O O' observed j,
  valid_market (fm M) -> price_averse M (var0 M) -> cooperation (mJ (fm M)) O -> cooperation (mJ (fm M)) O' ->
  (forall j k, (j < mJ (fm M))%nat -> (k < mJ (fm M))%nat -> O j k <= O' j k) -> exact_solver (mJ (fm M)) solve ->
  snd (compute_costs solve M O observed) = false -> snd (compute_costs solve M O' observed) = false ->
  (forall k, (k < mJ (fm M))%nat -> 0 <= observed k) -> (j < mJ (fm M))%nat ->
  fst (compute_costs solve M O' observed) j <= fst (compute_costs solve M O observed) j.
Proof. exact costs_antitone. Qed.
Print Assumptions C116_cooperation_lowers_costs.

(** ... and approximate prices after a merger are never below observed ones. *)
Theorem C116_mergers_raise_prices :
  forall solve M O O' observed costs j,
  valid_market (fm M) -> price_averse M (var0 M) -> cooperation (mJ (fm M)) O -> cooperation (mJ (fm M)) O' ->
  (forall j k, (j < mJ (fm M))%nat -> (k < mJ (fm M))%nat -> O j k <= O' j k) -> exact_solver (mJ (fm M)) solve ->
  snd (compute_costs solve M O observed) = false ->
  (costs = None \/ costs = Some (fst (compute_costs solve M O observed))) ->
  snd (compute_approximate_prices solve M O O' observed costs) = false ->
  (forall k, (k < mJ (fm M))%nat -> 0 <= observed k) -> (j < mJ (fm M))%nat ->
  var0 M j <= fst (compute_approximate_prices solve M O O' observed costs) j.
Proof. exact approximate_merger. Qed.
Print Assumptions C116_mergers_raise_prices.

(** Two firms with a product each, which merge. *)
Example C116_applies :
  let M := priced_market in let O := fun j k => if Nat.eqb j k then 1 else 0 in let O' := fun _ _ : nat => 1 in
  let observed := fun _ : nat => / 3 in
  valid_market (fm M) /\ price_averse M (var0 M) /\ cooperation (mJ (fm M)) O /\ cooperation (mJ (fm M)) O' /\
  (forall j k, (j < mJ (fm M))%nat -> (k < mJ (fm M))%nat -> O j k <= O' j k) /\ exact_solver (mJ (fm M)) cramer_solver /\
  snd (compute_costs cramer_solver M O observed) = false /\ snd (compute_costs cramer_solver M O' observed) = false /\
  snd (compute_approximate_prices cramer_solver M O O' observed None) = false /\
  (forall k, (k < mJ (fm M))%nat -> 0 < observed k /\ 0 < var0 M k).
Proof.
  cbv zeta.
  assert (C : cooperation 2 (fun j k => if Nat.eqb j k then 1 else 0)).
  { split; [intros j _; rewrite Nat.eqb_refl; reflexivity|intros j k _ _; destruct (Nat.eqb j k); lra]. }
  assert (C' : cooperation 2 (fun _ _ : nat => 1)) by (split; intros; [reflexivity|lra]).
  assert (E := cramer_solves priced_market _ (fun _ => / 3) eq_refl priced_valid priced_averse C).
  assert (E' := cramer_solves priced_market _ (fun _ => / 3) eq_refl priced_valid priced_averse C').
  split; [apply priced_valid|]. split; [apply priced_averse|]. split; [exact C|]. split; [exact C'|].
  split; [intros j k _ _; destruct (Nat.eqb j k); lra|]. split; [exact cramer_exact|].
  split; [exact E|]. split; [exact E'|]. split; [|intros k _; simpl; lra].
  unfold compute_approximate_prices. unfold compute_costs in *.
  destruct (compute_eta cramer_solver priced_market (fun j k => if Nat.eqb j k then 1 else 0) (fun _ => / 3)) as [e1 b1].
  destruct (compute_eta cramer_solver priced_market (fun _ _ => 1) (fun _ => / 3)) as [e2 b2].
  cbn [snd] in *. rewrite E, E'. reflexivity.
Qed.
