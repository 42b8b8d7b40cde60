(** Property theorems about implied markups: C139. *)
From Coq Require Import Reals Lra Lia List Bool Arith.
From Verif Require Import Base DemandModel DemandProofs SupplyModel SupplySpec SupplyProofs WelfareModel EndoSpec EndoProofs.
From Verif Require Import MarkupSpec MarkupProofs MarkupWitness.
Import ListNotations.
Local Open Scope R_scope.

(** C139: if everyone dislikes higher prices, recovered marginal costs are below prices. *)
Theorem C139_costs_below_prices :
  forall solve M O observed j,
  valid_market (fm M) -> price_averse M (var0 M) -> cooperation (mJ (fm M)) O -> exact_solver (mJ (fm M)) solve ->
  (forall k, (k < mJ (fm M))%nat -> 0 < observed k) ->
  snd (compute_costs solve M O observed) = false -> (j < mJ (fm M))%nat ->
  fst (compute_costs solve M O observed) j < var0 M j.
Proof. intros solve M O observed j V P C X H. exact (costs_below solve M observed V P X H O j C). Qed.
Print Assumptions C139_costs_below_prices.

(** C139: the more firms are assumed to cooperate, the lower are recovered costs. *)
Theorem C139_cooperation_lowers_costs :
  forall solve M O O' observed,
  valid_market (fm M) -> price_averse M (var0 M) -> cooperation (mJ (fm M)) O -> cooperation (mJ (fm M)) O' ->
  less_competition (mJ (fm M)) O O' -> exact_solver (mJ (fm M)) solve ->
  (forall k, (k < mJ (fm M))%nat -> 0 < observed k) ->
  snd (compute_costs solve M O observed) = false -> snd (compute_costs solve M O' observed) = false ->
  forall j, (j < mJ (fm M))%nat ->
  fst (compute_costs solve M O' observed) j <= fst (compute_costs solve M O observed) j /\
  ((exists k, (k < mJ (fm M))%nat /\ O j k < O' j k) ->
   fst (compute_costs solve M O' observed) j < fst (compute_costs solve M O observed) j).
Proof. intros solve M O O' observed V P C C' L X H. exact (costs_ordered solve M observed V P X H O O' C C' L). Qed.
Print Assumptions C139_cooperation_lowers_costs.

(** C139: markups over prices are at least the inverse of own elasticities, and are these inverses for
    products that are sold alone. *)
Theorem C139_inverse_elasticities :
  forall solve M O observed j,
  valid_market (fm M) -> price_averse M (var0 M) -> cooperation (mJ (fm M)) O -> exact_solver (mJ (fm M)) solve ->
  (forall k, (k < mJ (fm M))%nat -> 0 < observed k) ->
  snd (compute_costs solve M O observed) = false -> (j < mJ (fm M))%nat -> 0 < var0 M j ->
  let costs := fst (compute_costs solve M O observed) in
  - 1 / elasticities M observed j j <= markups (var0 M) costs j /\
  (alone (mJ (fm M)) O j -> markups (var0 M) costs j = - 1 / elasticities M observed j j).
Proof. intros solve M O observed j V P C X H. exact (lerner solve M observed V P X H O j C). Qed.
Print Assumptions C139_inverse_elasticities.

(** C139: recovered costs of products with inelastic demand are negative. *)
Theorem C139_inelastic :
  forall solve M O observed j,
  valid_market (fm M) -> price_averse M (var0 M) -> cooperation (mJ (fm M)) O -> exact_solver (mJ (fm M)) solve ->
  (forall k, (k < mJ (fm M))%nat -> 0 < observed k) ->
  snd (compute_costs solve M O observed) = false -> (j < mJ (fm M))%nat -> 0 < var0 M j ->
  - 1 < elasticities M observed j j -> fst (compute_costs solve M O observed) j < 0.
Proof. intros solve M O observed j V P C X H. exact (inelastic solve M observed V P X H O j C). Qed.
Print Assumptions C139_inelastic.

(** C139: approximate prices after firms begin to cooperate more are not below observed ones. *)
Theorem C139_approximate_prices_rise :
  forall solve M O O' observed,
  valid_market (fm M) -> price_averse M (var0 M) -> cooperation (mJ (fm M)) O -> cooperation (mJ (fm M)) O' ->
  less_competition (mJ (fm M)) O O' -> exact_solver (mJ (fm M)) solve ->
  (forall k, (k < mJ (fm M))%nat -> 0 < observed k) ->
  snd (compute_approximate_prices solve M O O' observed None) = false ->
  forall j, (j < mJ (fm M))%nat ->
  let p := fst (compute_approximate_prices solve M O O' observed None) in
  var0 M j <= p j /\ ((exists k, (k < mJ (fm M))%nat /\ O j k < O' j k) -> var0 M j < p j).
Proof. intros solve M O O' observed V P C C' L X H. exact (approximate_rises solve M observed V P X H O O' C C' L). Qed.
Print Assumptions C139_approximate_prices_rise.

Example C139_applies :
  valid_market (fm priced) /\ price_averse priced (var0 priced) /\ mJ (fm priced) = 2%nat /\ exact_solver 2 cramer /\
  let apart := fun j k => if Nat.eqb j k then 1 else 0 in
  let together := fun j k : nat => if Nat.eqb j k then 1 else 1 in
  let observed := fun _ : nat => / 3 in
  cooperation 2 apart /\ cooperation 2 together /\ less_competition 2 apart together /\ apart 0%nat 1%nat < together 0%nat 1%nat /\
  alone 2 apart 0 /\ 0 < var0 priced 0%nat /\ - 1 < elasticities priced observed 0%nat 0%nat /\
  snd (compute_costs cramer priced apart observed) = false /\
  snd (compute_costs cramer priced together observed) = false /\
  snd (compute_approximate_prices cramer priced apart together observed None) = false.
Proof.
  split; [exact priced_valid|]. split; [exact priced_averse|]. split; [reflexivity|]. split; [exact cramer_exact|]. cbv zeta.
  assert (C : forall c, 0 <= c <= 1 -> cooperation 2 (fun j k => if Nat.eqb j k then 1 else c)).
  { intros c Hc. split; [intros j _; rewrite Nat.eqb_refl; reflexivity|]. intros j k _ _. destruct (Nat.eqb j k); lra. }
  assert (F0 := cramer_fine 0 (fun _ => / 3) ltac:(lra)). assert (F1 := cramer_fine 1 (fun _ => / 3) ltac:(lra)).
  split; [apply C; lra|]. split; [apply C; lra|]. split; [intros j k _ _; destruct (Nat.eqb j k); lra|].
  split; [cbn; lra|]. split; [intros k _ N; destruct k; [congruence|reflexivity]|]. split; [cbn; lra|]. split.
  - unfold elasticities. rewrite priced_jacobian, flat_jacobian by lia. cbn. lra.
  - split; [exact F0|]. split; [exact F1|]. unfold compute_approximate_prices.
    destruct (compute_costs cramer priced _ _) as [c b] eqn:E. cbn [snd] in F0.
    unfold compute_costs in F1. destruct (compute_eta cramer priced (fun j k => if Nat.eqb j k then 1 else 1) _) as [e b'] eqn:E'.
    cbn [snd] in *. rewrite F0, F1. reflexivity.
Qed.
