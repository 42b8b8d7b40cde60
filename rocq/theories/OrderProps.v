(** Property theorems about orders of rows and representations of agents: C130 and C131. *)
From Coq Require Import Reals ZArith Lra Lia List Bool Arith.
From Verif Require Import Base FltModel IterModel DemandModel SupplyModel SupplyProofs DerivModel ConvModel WelfareModel
  PostModel EquilModel EndoSpec ProgressModel GradModel EquilWitness OrderSpec OrderProofs OrderRun OrderEstim OrderAgents OrderWitness.
Import ListNotations.
Local Open Scope R_scope.

(** C130: choice probabilities of products in another order are the same probabilities in that order, with nests, with
    or without robust exponentiation, and also when products are eliminated or unavailable. *)
Theorem C130_probabilities :
  forall J p m c c' safe delta mu, renumbers J p -> mJ m = J -> (0 < J)%nat -> reordered_choice J p c c' ->
  let r := probabilities_linear m c safe delta mu in
  let r' := probabilities_linear (reorder_market p m) c' safe (fun j => delta (p j)) (fun j => mu (p j)) in
  (forall j, (j < J)%nat -> fst r' j = fst r (p j)) /\
  match snd r', snd r with
  | None, None => True
  | Some y, Some x => forall j, (j < J)%nat -> y j = x (p j)
  | _, _ => False
  end.
Proof. intros J p m c c' safe delta mu Hp HJ H0 Hc. exact (linear_reorder J p Hp m c c' safe delta mu HJ H0 Hc). Qed.
Print Assumptions C130_probabilities.

(** C130: each step of the contractions, and closed forms, are the same up to the order. *)
Theorem C130_mean_utility_steps :
  forall J p m a safe bounds shares x j, renumbers J p -> mJ m = J -> (j < J)%nat ->
  contraction (reorder_market p m) (reorder_agents p a) safe bounds (fun j => shares (p j)) (fun j => x (p j)) j
    = contraction m a safe bounds shares x (p j) /\
  nonlinear_contraction (reorder_market p m) (reorder_agents p a) safe (fun j => shares (p j)) (fun j => x (p j)) j
    = nonlinear_contraction m a safe shares x (p j) /\
  closed_form_delta (reorder_market p m) (fun j => shares (p j)) j = closed_form_delta m shares (p j).
Proof.
  intros J p m a safe bounds shares x j Hp HJ Hj. split; [|split].
  - apply contraction_reorder with (J := J); assumption.
  - apply nonlinear_contraction_reorder with (J := J); assumption.
  - apply closed_form_reorder with (J := J); assumption.
Qed.
Print Assumptions C130_mean_utility_steps.

(** C130: so both routines find the same mean utilities, after the same numbers of iterations and evaluations. *)
Theorem C130_mean_utilities :
  forall J p m a safe bounds shares t max start, renumbers J p -> mJ m = J -> order_free J (t_norm t) ->
  match simple_iterator (delta_function m a safe bounds shares) t max (flat J start),
        simple_iterator (delta_function (reorder_market p m) (reorder_agents p a) safe bounds (fun j => shares (p j))) t max
          (flat J (fun j => start (p j))) with
  | Some o, Some o' => o_x o' = reorder_vector p (o_x o) /\ o_converged o' = o_converged o /\
      s_iterations (o_st o') = s_iterations (o_st o) /\ s_evaluations (o_st o') = s_evaluations (o_st o)
  | None, None => True
  | _, _ => False
  end.
Proof.
  intros J p m a safe bounds shares t max start Hp HJ Hn.
  exact (delta_simple_reorder J p Hp m a safe bounds shares t max start HJ Hn).
Qed.
Print Assumptions C130_mean_utilities.
Theorem C130_mean_utilities_squarem :
  forall J p m a safe bounds shares t max scheme factor b start, renumbers J p -> mJ m = J -> order_free J (t_norm t) ->
  match squarem_iterator (delta_function m a safe bounds shares) t max scheme factor b (flat J start),
        squarem_iterator (delta_function (reorder_market p m) (reorder_agents p a) safe bounds (fun j => shares (p j))) t max
          scheme factor b (flat J (fun j => start (p j))) with
  | Some o, Some o' => (o_x (q_out o') = reorder_vector p (o_x (q_out o)) /\ o_converged (q_out o') = o_converged (q_out o) /\
      s_iterations (o_st (q_out o')) = s_iterations (o_st (q_out o)) /\ s_evaluations (o_st (q_out o')) = s_evaluations (o_st (q_out o))) /\
      q_steps o' = q_steps o
  | None, None => True
  | _, _ => False
  end.
Proof.
  intros J p m a safe bounds shares t max scheme factor b start Hp HJ Hn.
  exact (delta_squarem_reorder J p Hp m a safe bounds shares t max scheme factor b start HJ Hn).
Qed.
Print Assumptions C130_mean_utilities_squarem.
(** The norm that is used by default is one of those for which this holds. *)
Theorem C130_default_norm : forall J, order_free J infinity_norm.
Proof. exact infinity_order_free. Qed.
Print Assumptions C130_default_norm.

(** C130: post-estimation outputs are in the order of rows, and totals do not depend on it. *)
Theorem C130_outputs :
  forall J p M observed x, renumbers J p -> mJ (fm M) = J ->
  let M' := reorder_full p M in let o' := fun j => observed (p j) in let x' := fun j => x (p j) in
  (forall j, (j < J)%nat -> shares_at M' x' j = shares_at M x (p j)) /\
  (forall j k, (j < J)%nat -> (k < J)%nat -> shares_jacobian M' x' j k = shares_jacobian M x (p j) (p k)) /\
  (forall j k, (j < J)%nat -> (k < J)%nat -> elasticities M' o' j k = elasticities M observed (p j) (p k)) /\
  (forall j k, (j < J)%nat -> (k < J)%nat ->
     diversion_ratios J (shares_jacobian M' x') j k = diversion_ratios J (shares_jacobian M x) (p j) (p k)) /\
  (forall factor, aggregate_elasticity M' o' factor = aggregate_elasticity M observed factor).
Proof.
  intros J p M observed x Hp HJ. cbv zeta. split; [|split; [|split; [|split]]]; intros.
  - apply shares_at_reorder with (J := J); assumption.
  - apply jacobian_reorder with (J := J); assumption.
  - apply elasticities_reorder with (J := J); assumption.
  - apply diversion_reorder with (J := J); try assumption. intros. apply jacobian_reorder with (J := J); assumption.
  - apply aggregate_reorder with (J := J); assumption.
Qed.
Print Assumptions C130_outputs.
Theorem C130_long_run_diversion :
  forall J p m a delta observed j k, renumbers J p -> mJ m = J -> (j < J)%nat -> (k < J)%nat ->
  long_run_diversion (reorder_market p m) (reorder_agents p a) (fun j => delta (p j)) (fun j => observed (p j)) j k
  = long_run_diversion m a delta observed (p j) (p k).
Proof. intros J p m a delta observed j k Hp. exact (long_run_reorder J p Hp m a delta observed j k). Qed.
Print Assumptions C130_long_run_diversion.
(** Consumer surplus uses the marginal utility of income from the first row, so here it has to be the same for all products. *)
Theorem C130_consumer_surplus :
  forall J p M avail mask x, renumbers J p -> mJ (fm M) = J -> (0 < J)%nat ->
  (forall i j k, (i < fI M)%nat -> (j < J)%nat -> (k < J)%nat ->
     utility_derivatives M false (var0 M) i j = utility_derivatives M false (var0 M) i k) ->
  consumer_surplus (reorder_full p M) (fun i => option_map (fun a j => a (p j)) (avail i))
    (option_map (fun a j => a (p j)) mask) (fun j => x (p j)) = consumer_surplus M avail mask x.
Proof. intros J p M avail mask x Hp. exact (surplus_reorder J p Hp M avail mask x). Qed.
Print Assumptions C130_consumer_surplus.
(** Otherwise it depends on the order of rows. *)
Theorem C130_consumer_surplus_needs_common_derivatives :
  exists M p, renumbers (mJ (fm M)) p /\
  consumer_surplus (reorder_full p M) (fun _ => None) None (fun j => var0 M (p j))
  <> consumer_surplus M (fun _ => None) None (var0 M).
Proof. exact surplus_depends. Qed.
Print Assumptions C130_consumer_surplus_needs_common_derivatives.

(** C130: marginal costs, when they are determined, and equilibrium prices. *)
Theorem C130_costs :
  forall J p solve solve' M O observed, renumbers J p -> mJ (fm M) = J ->
  nonsingular J (capital_delta M O (var0 M)) -> exact_solver J solve -> exact_solver J solve' ->
  snd (compute_costs solve M O observed) = false ->
  snd (compute_costs solve' (reorder_full p M) (fun j k => O (p j) (p k)) (fun j => observed (p j))) = false ->
  forall j, (j < J)%nat ->
  fst (compute_costs solve' (reorder_full p M) (fun j k => O (p j) (p k)) (fun j => observed (p j))) j
  = fst (compute_costs solve M O observed) (p j).
Proof. exact costs_reorder. Qed.
Print Assumptions C130_costs.
Theorem C130_equilibrium_prices :
  forall J p M O costs t max start, renumbers J p -> mJ (fm M) = J -> order_free J (t_norm t) ->
  match equilibrium_prices M O costs t max start,
        equilibrium_prices (reorder_full p M) (fun j k => O (p j) (p k)) (fun j => costs (p j)) t max
          (option_map (fun x j => x (p j)) start) with
  | Some o, Some o' => o_x o' = reorder_vector p (o_x o) /\ o_converged o' = o_converged o /\
      s_iterations (o_st o') = s_iterations (o_st o) /\ s_evaluations (o_st o') = s_evaluations (o_st o)
  | None, None => True
  | _, _ => False
  end.
Proof. intros J p M O costs t max start Hp. exact (prices_simple_reorder J p Hp M O costs t max start). Qed.
Print Assumptions C130_equilibrium_prices.

(** C130: estimates of linear parameters, moments, and the objective do not depend on the order of rows of product data. *)
Theorem C130_objective :
  forall solve inverse ec ec' r p delta_of delta_of' v, reordered_rows r p ec ec' ->
  (forall s j, delta_of' v s j = delta_of v s (p s j)) ->
  (forall n, exact_solver n (solve n)) ->
  (ec_supply ec = true -> forall s, (s < ec_T ec)%nat ->
     let M := market_of (ec_market ec s) v (delta_of v s) in
     nonsingular (mJ (fm (e_market (ec_market ec s)))) (capital_delta M (e_ownership (ec_market ec s)) (var0 M)) /\
     snd (eta_of solve (ec_market ec s) v (delta_of v s) inverse false) = false /\
     snd (eta_of solve (ec_market ec' s) v (delta_of' v s) inverse false) = false) ->
  (forall k, iv_parameters (rows ec) (ec_MI ec) (ec_K ec) (ec_X ec') (ec_Z ec') (ec_W ec) (ec_A ec)
       (absorbed ec' (stacked solve inverse ec' delta_of' false v)) k
     = iv_parameters (rows ec) (ec_MI ec) (ec_K ec) (ec_X ec) (ec_Z ec) (ec_W ec) (ec_A ec)
       (absorbed ec (stacked solve inverse ec delta_of false v)) k) /\
  (forall i, (i < ec_MI ec)%nat -> moments_at solve inverse ec' delta_of' false v i = moments_at solve inverse ec delta_of false v i) /\
  (ec_moments ec = [] -> ec_moments ec' = [] ->
     objective_at solve inverse ec' delta_of' false v = objective_at solve inverse ec delta_of false v).
Proof.
  intros solve inverse ec ec' r p delta_of delta_of' v H1 H2 H3 H4. split; [|split].
  - exact (parameters_reorder solve inverse ec ec' r p delta_of delta_of' v H1 H2 H3 H4).
  - exact (moments_reorder solve inverse ec ec' r p delta_of delta_of' v H1 H2 H3 H4).
  - exact (objective_reorder solve inverse ec ec' r p delta_of delta_of' v H1 H2 H3 H4).
Qed.
Print Assumptions C130_objective.
(** Weighting matrices and covariances of parameters are computed from these cross products. *)
Theorem C130_cross_products :
  forall ec ec' r p, reordered_rows r p ec ec' ->
  (forall i j, sumn (rows ec) (fun n => ec_Z ec' n i * ec_Z ec' n j) = sumn (rows ec) (fun n => ec_Z ec n i * ec_Z ec n j)) /\
  (forall k i, sumn (rows ec) (fun n => ec_X ec' n k * ec_Z ec' n i) = sumn (rows ec) (fun n => ec_X ec n k * ec_Z ec n i)).
Proof. intros ec ec' r p H. split; [exact (ZZ_reorder ec ec' r p H)|exact (XZ_reorder ec ec' r p H)]. Qed.
Print Assumptions C130_cross_products.

Example C130_applies :
  renumbers 2 swap /\ gid (reorder_market swap two_nests) 0 <> gid two_nests 0 /\
  reordered_choice 2 swap (mk_choice false None (Some 0%nat) None) (mk_choice false None (Some 1%nat) None) /\
  nonsingular 2 (capital_delta two_products (firm_ownership [1; 2]%Z) (var0 two_products)) /\
  snd (compute_costs diagonal_solver (reorder_full swap two_products) (fun j k => firm_ownership [1; 2]%Z (swap j) (swap k))
         (fun j => shares_at two_products (var0 two_products) (swap j))) = false.
Proof.
  split; [exact swap_renumbers|]. split; [exact two_nests_differ|]. split; [|split; [exact two_products_nonsingular|exact swapped_costs]].
  apply (eliminate_reordered 2 swap 1). lia.
Qed.
Example C130_objective_applies :
  reordered_rows swap (fun _ => swap) pair_economy swapped_economy /\ ec_supply pair_economy = true /\
  ec_Z swapped_economy 0%nat 0%nat <> ec_Z pair_economy 0%nat 0%nat /\
  (forall n, exact_solver n (pair_solve n)) /\
  forall s, (s < ec_T pair_economy)%nat -> let M := market_of (ec_market pair_economy s) pair_point (fun _ => 0) in
     nonsingular (mJ (fm (e_market (ec_market pair_economy s)))) (capital_delta M (e_ownership (ec_market pair_economy s)) (var0 M)) /\
     snd (eta_of pair_solve (ec_market pair_economy s) pair_point (fun _ => 0) (fun _ A => (A, true)) false) = false /\
     snd (eta_of pair_solve (ec_market swapped_economy s) pair_point (fun _ => 0) (fun _ A => (A, true)) false) = false.
Proof.
  split; [exact swapped_rows|]. split; [reflexivity|]. split; [cbn; lra|]. split; [exact pair_solve_exact|].
  intros s _. cbv zeta. change (ec_market pair_economy s) with pair_market.
  change (ec_market swapped_economy s) with (reorder_economy_market swap pair_market). unfold eta_of.
  rewrite pair_market_is, swapped_market_is. split; [exact two_products_nonsingular|]. split.
  - assert (F := two_products_costs). unfold compute_costs, compute_eta in F |- *.
    etransitivity; [apply (diagonal_flag _ _ (shares_at two_products (var0 two_products)))|]. cbn [e_ownership pair_market] in *. destruct (diagonal_solver _ _). exact F.
  - assert (F := swapped_costs). unfold compute_costs, compute_eta in F |- *.
    etransitivity; [apply (diagonal_flag _ _ (fun j => shares_at two_products (var0 two_products) (swap j)))|]. cbn [e_ownership pair_market] in *. destruct (diagonal_solver _ _). exact F.
Qed.

(** C131: what is computed for a market depends on agents only through the distribution of what differs between them. *)
Theorem C131_mean_utilities :
  forall m a a' safe bounds shares, same_distribution (aI a) (aw a) (amu a) (aI a') (aw a') (amu a') ->
  (forall delta j, market_shares m a safe delta j = market_shares m a' safe delta j) /\
  contraction m a safe bounds shares = contraction m a' safe bounds shares /\
  (forall x j, nonlinear_contraction m a safe shares x j = nonlinear_contraction m a' safe shares x j) /\
  (forall t max start,
     simple_iterator (delta_function m a safe bounds shares) t max start
     = simple_iterator (delta_function m a' safe bounds shares) t max start) /\
  (forall t max scheme factor b start,
     squarem_iterator (delta_function m a safe bounds shares) t max scheme factor b start
     = squarem_iterator (delta_function m a' safe bounds shares) t max scheme factor b start).
Proof.
  intros m a a' safe bounds shares H. split; [|split; [|split; [|split]]]; intros.
  - apply market_shares_same, H.
  - apply contraction_same, H.
  - apply nonlinear_same, H.
  - rewrite (delta_function_same m a a' safe bounds shares H). reflexivity.
  - rewrite (delta_function_same m a a' safe bounds shares H). reflexivity.
Qed.
Print Assumptions C131_mean_utilities.
Theorem C131_outputs :
  forall M I' w' coef', let M' := with_agents M I' w' coef' in
  same_distribution (fI M) (fw M) (agent_coefficients M) I' w' (agent_coefficients M') ->
  (forall x j, shares_at M x j = shares_at M' x j) /\
  (forall x j k, shares_jacobian M x j k = shares_jacobian M' x j k) /\
  (forall solve O observed, compute_costs solve M O observed = compute_costs solve M' O observed) /\
  (forall O costs t max start, equilibrium_prices M O costs t max start = equilibrium_prices M' O costs t max start) /\
  (forall avail mask x, consumer_surplus M (fun _ => avail) mask x = consumer_surplus M' (fun _ => avail) mask x).
Proof.
  intros M I' w' coef' M' H. split; [|split; [|split; [|split]]]; intros.
  - apply shares_at_same, H.
  - apply jacobian_same, H.
  - apply costs_same, H.
  - apply prices_same, H.
  - apply surplus_same, H.
Qed.
Print Assumptions C131_outputs.

(** C131: representations of the same distribution: agents in another order, agents that are split into several ones with the same
    total weight, and agents without weight. *)
Theorem C131_representations :
  forall (A : Type) I w (x : nat -> A),
  (forall q, renumbers I q -> same_distribution I w x I (fun i => w (q i)) (fun i => x (q i))) /\
  (forall I' w' q, (forall i, (i < I')%nat -> (q i < I)%nat) ->
     (forall i, (i < I)%nat -> w i = sumn I' (fun i' => if Nat.eqb (q i') i then w' i' else 0)) ->
     same_distribution I w x I' w' (fun i => x (q i))) /\
  (forall K, (forall i, (I <= i < I + K)%nat -> w i = 0) -> same_distribution (I + K) w x I w x).
Proof.
  intros A I w x. split; [|split].
  - intros q. apply reordered_same.
  - intros I' w' q. apply split_same.
  - intros K. apply dropped_same.
Qed.
Print Assumptions C131_representations.
(** It is an equivalence, so these can be combined. *)
Theorem C131_equivalence :
  forall (A : Type) I w (x : nat -> A) I' w' x' I'' w'' x'', same_distribution I w x I' w' x' ->
  same_distribution I' w' x' I w x /\ (same_distribution I' w' x' I'' w'' x'' -> same_distribution I w x I'' w'' x'').
Proof. intros. split; [apply same_sym; assumption|intros; eapply same_trans; eassumption]. Qed.
Print Assumptions C131_equivalence.

Example C131_applies :
  same_distribution 2 (fun _ => / 2) (agent_coefficients two_agents) 3 three_weights
    (agent_coefficients (with_agents two_agents 3 three_weights three_coefficients)) /\
  agent_coefficients two_agents 0 1%nat 1%nat <> agent_coefficients two_agents 1 1%nat 1%nat.
Proof. split; [exact three_agents_same|]. unfold agent_coefficients. cbn. lra. Qed.
