(** Properties of markups, and of what estimation recovers from simulated data.  Proofs are in
    EndoProofs.v. *)
From Coq Require Import Reals Lra Lia List Bool Arith.
From Verif Require Import Base DemandSpec DemandModel DemandProofs DemandShares DemandDeriv
  SupplyModel SupplySpec SupplyProofs DerivModel DerivProofs DerivMore EndoModel EndoSpec EndoProofs.
Import ListNotations.
Local Open Scope R_scope.

(** C86: if everyone dislikes higher prices, the matrix that is inverted for markups is nonsingular under
    every ownership and cooperation between zero and one, ... *)
Theorem C86_markups_nonsingular :
  forall M O x,
  valid_market (fm M) -> price_averse M x -> cooperation (mJ (fm M)) O ->
  nonsingular (mJ (fm M)) (capital_delta M O x).
Proof. exact capital_delta_nonsingular. Qed.
Print Assumptions C86_markups_nonsingular.

(** ... because products are substitutes and higher prices lose customers, ... *)
Theorem C86_substitutes :
  forall M x j k,
  valid_market (fm M) -> good_columns M x -> price_averse M x -> (j < mJ (fm M))%nat -> (k < mJ (fm M))%nat ->
  exists d, derivable_pt_lim (fun t => shares_at M (upd x k t) j) (x k) d /\
    (j <> k -> 0 < d) /\ (j = k -> d < 0).
Proof.
  intros M x j k V G PA Hj Hk. exists (shares_jacobian M x j k). split; [apply jacobian_is_derivative; assumption|].
  split; [intros; apply cross_positive; assumption|intros ->; apply own_negative; assumption].
Qed.
Print Assumptions C86_substitutes.

(** ... so that recovered costs are determined by the data: two exact solvers agree. *)
Theorem C86_costs_unique :
  forall solve solve' M O observed,
  valid_market (fm M) -> price_averse M (var0 M) -> cooperation (mJ (fm M)) O ->
  exact_solver (mJ (fm M)) solve -> exact_solver (mJ (fm M)) solve' ->
  snd (compute_costs solve M O observed) = false -> snd (compute_costs solve' M O observed) = false ->
  forall j, (j < mJ (fm M))%nat -> fst (compute_costs solve M O observed) j = fst (compute_costs solve' M O observed) j.
Proof. exact costs_unique. Qed.
Print Assumptions C86_costs_unique.

Example C86_applies : exists M O x,
  valid_market (fm M) /\ good_columns M x /\ price_averse M x /\ cooperation (mJ (fm M)) O /\ (1 < mJ (fm M))%nat /\ O 0%nat 1%nat = / 2.
Proof.
  exists (flat_market 3 (fun j => 1 + INR j)), (fun j k => if Nat.eqb j k then 1 else / 2), (fun _ => 0).
  split; [apply flat_valid; lia|]. split; [apply flat_good|].
  split; [apply flat_averse; intros j; assert (P := pos_INR j); lra|].
  split; [|split; [cbn; lia|reflexivity]]. split.
  - intros j _. rewrite Nat.eqb_refl. reflexivity.
  - intros j k _ _. destruct (Nat.eqb j k); lra.
Qed.

(** C87: whatever prices simulated data have, the only mean utilities that reproduce their shares are
    those that they were simulated with, and demand-side structural errors are recovered exactly. *)
Theorem C87_xi_recovered :
  forall M xi x safe delta,
  valid_market (fm M) -> valid_agents (agents_with M (update_mu M x)) ->
  (mH (fm M) <> O -> forall h, (h < mH (fm M))%nat -> 0 <= grho (fm M) h) ->
  honest (fK1 M) (fX1 M) -> (forall j, delta0 M j = initial_delta M xi j) ->
  (forall j, (j < mJ (fm M))%nat ->
     market_shares (fm M) (agents_with (market_on M x delta) (compute_mu (market_on M x delta) (X2_0 (market_on M x delta)))) safe delta j
     = simulated_shares M x j) ->
  forall j, (j < mJ (fm M))%nat ->
    delta j = simulated_delta M x j /\ residual_xi (market_on M x delta) delta j = xi j.
Proof. exact xi_recovered. Qed.
Print Assumptions C87_xi_recovered.

(** Supply-side structural errors are recovered from equilibrium prices, with linear and log-linear costs,
    if costs do not depend on shares or are updated with them. *)
Theorem C87_omega_recovered :
  forall constant M O S solve shares0 omega x delta bounds,
  valid_market (fm M) -> price_averse M x -> cooperation (mJ (fm M)) O ->
  (forall j k, (j < mJ (fm M))%nat -> (k < mJ (fm M))%nat -> O j k = O k j) ->
  exact_solver (mJ (fm M)) solve -> honest (sK3 S) (sX3 S) ->
  (constant = true -> forall k, (k < sK3 S)%nat -> uses (sX3 S k) = false) ->
  (forall j, (j < mJ (fm M))%nat ->
     endogenous_contraction constant M O S shares0 (initial_costs S shares0 omega) x j = x j) ->
  (forall j, (j < mJ (fm M))%nat -> delta j = simulated_delta M x j) ->
  snd (compute_costs solve (market_on M x delta) O (simulated_shares M x)) = false ->
  (forall j lo, (j < mJ (fm M))%nat -> fst bounds = Some lo -> lo <= simulated_costs constant M S shares0 (initial_costs S shares0 omega) x j) ->
  (forall j hi, (j < mJ (fm M))%nat -> snd bounds = Some hi -> simulated_costs constant M S shares0 (initial_costs S shares0 omega) x j <= hi) ->
  forall j, (j < mJ (fm M))%nat ->
    residual_omega S bounds (simulated_shares M x)
      (fst (compute_costs solve (market_on M x delta) O (simulated_shares M x))) j = omega j.
Proof. exact omega_recovered. Qed.
Print Assumptions C87_omega_recovered.

(** With costs that depend on shares and are held constant, which is the default, they are not. *)
Theorem C87_constant_costs_refuted : exists M O S solve shares0 omega x delta,
  valid_market (fm M) /\ price_averse M x /\ cooperation (mJ (fm M)) O /\
  (forall j k, O j k = O k j) /\ exact_solver (mJ (fm M)) solve /\ honest (sK3 S) (sX3 S) /\
  (forall j, (j < mJ (fm M))%nat ->
     endogenous_contraction true M O S shares0 (initial_costs S shares0 omega) x j = x j) /\
  (forall j, (j < mJ (fm M))%nat -> delta j = simulated_delta M x j) /\
  snd (compute_costs solve (market_on M x delta) O (simulated_shares M x)) = false /\
  (0 < mJ (fm M))%nat /\
  residual_omega S (None, None) (simulated_shares M x)
    (fst (compute_costs solve (market_on M x delta) O (simulated_shares M x))) 0 <> omega 0%nat.
Proof. exact constant_costs_refuted. Qed.
Print Assumptions C87_constant_costs_refuted.

Example C87_applies : exists M O S solve shares0 omega x delta,
  valid_market (fm M) /\ valid_agents (agents_with M (update_mu M x)) /\ price_averse M x /\ cooperation (mJ (fm M)) O /\
  exact_solver (mJ (fm M)) solve /\ honest (fK1 M) (fX1 M) /\ honest (sK3 S) (sX3 S) /\
  (forall j, delta0 M j = initial_delta M (fun _ => 0) j) /\
  (forall j, (j < mJ (fm M))%nat ->
     endogenous_contraction false M O S shares0 (initial_costs S shares0 omega) x j = x j) /\
  (forall j, (j < mJ (fm M))%nat -> delta j = simulated_delta M x j) /\
  snd (compute_costs solve (market_on M x delta) O (simulated_shares M x)) = false /\ (0 < mJ (fm M))%nat /\
  uses (sX3 S 0%nat) = true.
Proof.
  set (M := flat_market 1 (fun _ => 1)).
  exists M, (fun _ _ => 1), shares_supply, scalar_solver, (fun _ => 3), (fun _ => -2 - / 2), (fun _ => 0), (fun _ => 0).
  split; [apply flat_valid; lia|]. split.
  { split; [cbn; intros; lra|]. exists 0%nat. cbn. split; [lia|lra]. }
  split; [apply flat_averse; intros; lra|]. split; [split; intros; [reflexivity|lra]|].
  split; [exact scalar_solver_exact|]. split; [intros k j x y _ H; discriminate|]. split; [intros k j x y _ H; discriminate|].
  split; [intros j; unfold initial_delta; cbn; ring|]. split.
  - intros j Hj. transitivity (price_contraction M (fun _ _ => 1) (fun _ => -2) (fun _ => 0) j); [|apply flat_fixed; exact Hj].
    assert (E : forall j, (j < 1)%nat -> costs_given false M shares_supply (fun _ => 3) (initial_costs shares_supply (fun _ => 3) (fun _ => -2 - / 2)) (fun _ => 0) j = -2).
    { intros k Hk. unfold costs_given. rewrite updated_costs by (intros ? ? ? ? _ H; discriminate).
      unfold initial_costs. cbn [stype sK3 sX3 sgamma shares_supply ev sumn].
      unfold M. rewrite flat_shares by assumption. simpl. lra. }
    unfold endogenous_contraction, price_contraction, zeta. cbn [mJ fm flat_market M sumn].
    rewrite (E j Hj), (E 0%nat) by lia. reflexivity.
  - split; [intros j Hj; unfold simulated_delta, update_delta; cbn; ring|].
    split; [exact flat_no_error|]. split; [cbn; lia|reflexivity].
Qed.

(** C88: the profit gradients that are reported with simulated prices are the gradients of firms' total
    profits with respect to their own prices, ... *)
Theorem C88_profit_gradients :
  forall M firm costs x f,
  valid_market (fm M) -> good_columns M x ->
  Forall2 (fun k g => (k < mJ (fm M))%nat /\ firm k = f /\
             derivable_pt_lim (fun t => firm_profit (mJ (fm M)) firm costs (shares_at M) f (upd x k t)) (x k) g)
    (firm_rows (mJ (fm M)) firm f) (profit_gradients M firm (owns firm) costs x f) /\
  (forall k, (k < mJ (fm M))%nat -> firm k = f -> In k (firm_rows (mJ (fm M)) firm f)) /\
  NoDup (firm_rows (mJ (fm M)) firm f).
Proof. exact profit_gradients_exact. Qed.
Print Assumptions C88_profit_gradients.

(** ... Hessians are theirs, ... *)
Theorem C88_profit_hessians :
  forall M firm costs x e f D,
  valid_market (fm M) -> 0 < e -> (forall y, near (mJ (fm M)) e x y -> good_columns M y) -> twice_differentiable M x ->
  (forall y k, near (mJ (fm M)) e x y -> (k < mJ (fm M))%nat -> firm k = f ->
     derivable_pt_lim (fun t => firm_profit (mJ (fm M)) firm costs (shares_at M) f (upd y k t)) (y k) (D y k)) ->
  Forall2 (fun k row => Forall2 (fun l h => derivable_pt_lim (fun t => D (upd x l t) k) (x l) h)
                          (firm_rows (mJ (fm M)) firm f) row)
    (firm_rows (mJ (fm M)) firm f) (profit_hessians M firm (owns firm) costs x f).
Proof. exact profit_hessians_exact. Qed.
Print Assumptions C88_profit_hessians.

(** ... and gradients are zero for all firms exactly at fixed points of the iteration. *)
Theorem C88_zero_gradients_iff_fixed :
  forall constant M firm S shares0 costs x,
  valid_market (fm M) -> price_averse M x ->
  (forall f, Forall (fun g => g = 0) (profit_gradients M firm (owns firm) (simulated_costs constant M S shares0 costs x) x f)) <->
  (forall j, (j < mJ (fm M))%nat -> endogenous_contraction constant M (owns firm) S shares0 costs x j = x j).
Proof. exact zero_gradients_iff. Qed.
Print Assumptions C88_zero_gradients_iff_fixed.

Example C88_applies :
  let M := flat_market 3 (fun _ => 1) in
  valid_market (fm M) /\ (forall x, good_columns M x) /\ (forall x, twice_differentiable M x) /\ price_averse M (fun _ => 0) /\
  firm_rows (mJ (fm M)) (fun j => j mod 2) 0 = [0; 2]%nat /\ owns (fun j => j mod 2)%nat 0 2 = 1.
Proof.
  cbv zeta. split; [apply flat_valid; lia|]. split; [intros; apply flat_good|]. split.
  - intros x. split; intros k j Hu Hk Hj; [cbn; apply dlim_const|cbn in Hk; lia].
  - split; [apply flat_averse; intros; lra|]. split; reflexivity.
Qed.
