(** Theorems about signs of columns of sigma: C149. *)
From Coq Require Import Reals Lra Lia List Bool Arith.
From Verif Require Import Base FltModel DemandModel DemandSpec DemandProofs SupplyModel DerivModel EquilModel WelfareModel IterModel ConvModel GradModel ProgressModel OrderRun OrderEstim OrderAgents IntegModel IntegSpec IntegProofs IntegProps
  OrderSpec OrderProofs OrderProps SignSpec SignProofs.
Import ListNotations.
Local Open Scope R_scope.

(** If nodes are distributed symmetrically in a dimension, the sign of the corresponding column of sigma, which is not a
    feature of the covariance matrix of random coefficients, does not matter for mean utilities, whatever fixed point
    routine computes them. *)
Theorem C149_mean_utilities m I w (T : tastes) sigma pi c safe bounds shares : symmetric_agents I w (r_nodes T) (r_dem T) c ->
  let a := mk_agents I w (mu_of T sigma pi) in let a' := mk_agents I w (mu_of T (flip_column c sigma) pi) in
  (forall k l, sigma_squared (r_K2 T) (flip_column c sigma) k l = sigma_squared (r_K2 T) sigma k l) /\
  (forall delta j, market_shares m a safe delta j = market_shares m a' safe delta j) /\
  contraction m a safe bounds shares = contraction m a' safe bounds shares /\
  (forall x j, nonlinear_contraction m a safe shares x j = nonlinear_contraction m a' safe shares x j) /\
  (forall t max start,
     simple_iterator (delta_function m a safe bounds shares) t max start
     = simple_iterator (delta_function m a' safe bounds shares) t max start) /\
  (forall t max scheme factor b start,
     squarem_iterator (delta_function m a safe bounds shares) t max scheme factor b start
     = squarem_iterator (delta_function m a' safe bounds shares) t max scheme factor b start).
Proof.
  intros H a a'. split; [intros k l; apply flip_squared|]. exact (C131_mean_utilities m a a' safe bounds shares (flipped_mu I w T sigma pi c H)).
Qed.
Print Assumptions C149_mean_utilities.

(** Nor for anything computed from them: shares, derivatives, costs, equilibrium prices and consumer surplus. *)
Theorem C149_outputs M (T : tastes) delta sigma pi c : symmetric_agents (fI M) (fw M) (r_nodes T) (r_dem T) c ->
  let M1 := tastes_at M T delta sigma pi in let M2 := tastes_at M T delta (flip_column c sigma) pi in
  (forall x j, shares_at M1 x j = shares_at M2 x j) /\
  (forall x j k, shares_jacobian M1 x j k = shares_jacobian M2 x j k) /\
  (forall solve O observed, compute_costs solve M1 O observed = compute_costs solve M2 O observed) /\
  (forall O costs t max start, equilibrium_prices M1 O costs t max start = equilibrium_prices M2 O costs t max start) /\
  (forall avail mask x, consumer_surplus M1 (fun _ => avail) mask x = consumer_surplus M2 (fun _ => avail) mask x).
Proof. intros H M1 M2. exact (C131_outputs M1 (fI M) (fw M) (fcoef M2) (flipped_distribution M T delta sigma pi c H)). Qed.
Print Assumptions C149_outputs.

(** Product rules and sparse grids are symmetric in each dimension, if demographics are the same for all agents. *)
Theorem C149_rules t nested dimensions level nodes weights dem c : (1 <= level)%nat -> (1 <= dimensions)%nat -> sound_tables t nested ->
  product_rule t dimensions level nested = Some (nodes, weights) \/ (exists fuel, sparse_grid t fuel dimensions level = Some (nodes, weights)) ->
  symmetric_agents (length nodes) (weight_of weights) (node_of nodes) (fun _ => dem) c.
Proof.
  intros L D T [H|[fuel H]]; [exact (product_symmetric t nested level dimensions nodes weights c dem L D T H)|
    exact (sparse_symmetric t nested fuel dimensions level nodes weights c dem D L T H)].
Qed.
Print Assumptions C149_rules.

Example C149_applies : sound_tables three_levels false /\
  (exists nodes weights, product_rule three_levels 2 3 false = Some (nodes, weights) /\ length nodes = 9%nat /\
     symmetric_agents 9 (weight_of weights) (node_of nodes) (fun _ _ _ => 1) 1).
Proof.
  split; [exact three_sound|].
  assert (E : exists nodes weights, product_rule three_levels 2 3 false = Some (nodes, weights) /\ length nodes = 9%nat).
  { do 2 eexists. split; [reflexivity|]. cbn. destruct (Req_EM_T 0 0) as [_|N]; [|lra]. destruct (Req_EM_T (sqrt 3) 0) as [Z|_]; [|reflexivity].
    exfalso. assert (0 < sqrt 3) by (apply sqrt_lt_R0; lra). lra. }
  destruct E as (nodes & weights & E & L). exists nodes, weights. split; [exact E|]. split; [exact L|]. rewrite <- L.
  apply (C149_rules three_levels false 2 3 nodes weights (fun _ _ => 1) 1); [lia|lia|exact three_sound|left; exact E].
Qed.

(** With draws, which are not symmetric, signs do matter: one agent with a positive node. *)
Theorem C149_draws : exists m I w (T : tastes) sigma pi c, valid_market m /\ sumn I w = 1 /\
  market_shares m (mk_agents I w (mu_of T sigma pi)) true (fun _ => 0) 0 <> market_shares m (mk_agents I w (mu_of T (flip_column c sigma) pi)) true (fun _ => 0) 0.
Proof.
  exists (mk_market 1 0 (fun _ => O) false (fun _ => 0) 1), 1%nat, (fun _ => 1),
    (mk_tastes 1 0 (fun _ => RCLinear) (fun _ _ => 1) (fun _ _ _ => 0) (fun _ _ => 1)), (fun _ _ => 1), (fun _ _ => 0), 0%nat.
  destruct signs_matter as [V W]. split; [exact V|]. split; [cbn; lra|exact W].
Qed.
Print Assumptions C149_draws.
