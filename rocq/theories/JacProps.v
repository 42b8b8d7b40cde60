(** C111: the Jacobians that iteration routines receive. *)
From Coq Require Import Reals Lra Lia List Bool Arith.
From Verif Require Import Base DemandModel DemandSpec DemandProofs DemandShares DemandElim DemandDeriv
  SupplyModel SupplySpec SupplyProofs DerivModel DerivMore EndoModel JacModel JacProofs.
Local Open Scope R_scope.

(** C111: updated prices, also if costs depend on shares, linearly or log-linearly. *)
Theorem C111_prices :
  forall constant M mentions O S shares0 costs x j l,
  valid_market (fm M) -> good_columns M x -> twice_differentiable M x -> right_mentions M mentions ->
  (constant = false -> good_costs (mJ (fm M)) S (shares_at M x)) ->
  lamda_at M x j <> 0 -> (j < mJ (fm M))%nat -> (l < mJ (fm M))%nat ->
  derivable_pt_lim (fun t => updated_prices constant M mentions O S shares0 costs (upd x l t) j) (x l)
    (prices_jacobian constant M mentions O S shares0 costs x j l).
Proof. exact prices_jacobian_derive. Qed.
Print Assumptions C111_prices.

(** These are the prices whose fixed points are characterized by C13 and C88. *)
Theorem C111_prices_are_contraction :
  forall constant M mentions O S shares0 costs x j, right_mentions M mentions ->
  updated_prices constant M mentions O S shares0 costs x j = endogenous_contraction constant M O S shares0 costs x j.
Proof. exact updated_prices_contraction. Qed.
Print Assumptions C111_prices_are_contraction.

(** C111: mean utilities, when the share is strictly within its bounds, ... *)
Theorem C111_delta :
  forall m a safe bounds shares x j k,
  valid_market m -> valid_agents a -> eps_scale m = 1 -> (j < mJ m)%nat -> (k < mJ m)%nat ->
  strictly_inside bounds (market_shares m a safe x j) ->
  derivable_pt_lim (fun t => contraction m a safe bounds shares (upd x k t) j) (x k)
    (clipped_jacobian m a safe bounds x j k).
Proof. exact clipped_derive. Qed.
Print Assumptions C111_delta.

(** ... but not when it is clipped. *)
Theorem C111_clipped_refuted : exists m a bounds shares x j k,
  valid_market m /\ valid_agents a /\ eps_scale m = 1 /\ (j < mJ m)%nat /\ (k < mJ m)%nat /\
  (forall lb ub, fst bounds = Some lb -> snd bounds = Some ub -> lb < ub) /\
  ~ derivable_pt_lim (fun t => contraction m a true bounds shares (upd x k t) j) (x k)
      (clipped_jacobian m a true bounds x j k).
Proof. exact clipped_refuted. Qed.
Print Assumptions C111_clipped_refuted.

(** C111: exponentiated mean utilities in the nonlinear formulation. *)
Theorem C111_exponentiated_delta :
  forall m a safe shares delta j k,
  valid_market m -> valid_agents a -> eps_scale m = 1 -> (mH m <> O -> safe = false) ->
  (forall k, (k < mJ m)%nat -> 0 < shares k) -> (j < mJ m)%nat -> (k < mJ m)%nat ->
  derivable_pt_lim (fun t => nonlinear_contraction m a safe shares (upd (fun k => exp (delta k)) k t) j) (exp (delta k))
    (nonlinear_jacobian m a safe shares (fun k => exp (delta k)) j k).
Proof. exact nonlinear_derive. Qed.
Print Assumptions C111_exponentiated_delta.

(** Conditional probabilities that it uses are those of the model, with and without safeguards. *)
Theorem C111_conditionals :
  forall m a safe delta i j,
  valid_market m -> mH m <> O -> eps_scale m = 1 -> (j < mJ m)%nat ->
  nonlinear_conditionals m a safe (fun k => exp (delta k)) i j
  = within_group (mJ m) (gid m) (grho m) all_goods (fun k => delta k + amu a i k) j.
Proof. exact nonlinear_conditionals_within. Qed.
Print Assumptions C111_conditionals.

(** Three products with prices in X1, and log-linear costs that fall in shares. *)
Definition falling_costs : supply :=
  mk_supply 1 (fun _ => mk_column true (fun _ s => s * s) (fun _ s => 2 * s) (fun _ _ => 2)) (fun _ => - (1)) LogCosts.
Example C111_applies :
  let M := flat_market 3 (fun j => 1 + INR j) in
  valid_market (fm M) /\ (forall x, good_columns M x) /\ (forall x, twice_differentiable M x) /\ right_mentions M (fun _ _ => false) /\
  good_costs 3 falling_costs (shares_at M (fun _ => 0)) /\ (forall j, (j < 3)%nat -> lamda_at M (fun _ => 0) j <> 0).
Proof.
  cbv zeta. split; [apply flat_valid; lia|]. split; [intros; apply flat_good|].
  split. { intros x. split; intros k j Hu Hk Hj; [cbn; apply dlim_const|cbn in Hk; lia]. }
  split. { intros second c j y z [[k [Hk ->]]|[k [Hk ->]]] _; destruct second; cbn; reflexivity. }
  split. { intros k j Hk Hj _. cbn. eapply dlim_eq; [|apply dlim_mult; apply dlim_id]. cbv beta. ring. }
  intros j Hj. unfold lamda_at, capital_lamda. change (mH (fm (flat_market 3 _)) =? 0)%nat with true. cbv iota.
  change (fI (flat_market 3 _)) with 1%nat. cbn [sumn]. rewrite flat_prob by assumption.
  assert (E : utility_derivatives (flat_market 3 (fun j => 1 + INR j)) false (fun _ => 0) 0 j = - (1 + INR j)).
  { unfold utility_derivatives. cbn. destruct (Req_EM_T 1 1); [|lra]. ring. }
  rewrite E. change (fw (flat_market 3 _) 0) with 1.
  assert (0 <= INR j) by apply pos_INR. cbn. nra.
Qed.

Example C111_delta_applies :
  let m := mk_market 2 1 (fun _ => O) false (fun _ => / 2) 1 in
  let a := mk_agents 2 (fun _ => / 2) (fun i j => INR i * INR j) in
  valid_market m /\ valid_agents a /\ eps_scale m = 1 /\ mH m <> O /\
  strictly_inside (Some 0, None) (market_shares m a false (fun _ => 0) 1).
Proof.
  cbv zeta.
  assert (V : valid_market (mk_market 2 1 (fun _ => O) false (fun _ => / 2) 1))
    by (constructor; cbn; intros; try lia; try lra; try reflexivity).
  assert (VA : valid_agents (mk_agents 2 (fun _ => / 2) (fun i j => INR i * INR j)))
    by (split; [intros; cbn; lra|exists O; cbn; split; [lia|lra]]).
  split; [exact V|]. split; [exact VA|]. split; [reflexivity|]. split; [discriminate|].
  split; [|intros; discriminate]. intros lb H. inversion H; subst. apply market_shares_pos; [exact V|exact VA|cbn; lia].
Qed.
