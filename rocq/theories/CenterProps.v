(** Theorems about where demographics and integration nodes are measured from: C150. *)
From Coq Require Import Reals Lra Lia List Bool Arith.
From Verif Require Import Base FltModel IterModel DemandModel SupplyModel DerivModel ConvModel WelfareModel EquilModel DemandSpec DemandProofs CenterSpec CenterProofs.
Import ListNotations.
Local Open Scope R_scope.

(** If random coefficients are linear, adding numbers to demographics and nodes lowers the mean utilities that match
    shares by what this adds to everyone's utility.  Routines take the same steps, by evaluations of the contraction
    at lowered values, and report the same numbers of iterations and evaluations and the same convergence. *)
Theorem C150_mean_utilities m I w (T : tastes) sigma pi e c safe bounds shares : valid_market m ->
  (forall k, (k < r_K2 T)%nat -> r_types T k = RCLinear) ->
  let a := mk_agents I w (mu_of T sigma pi) in let a' := mk_agents I w (mu_of (recentered e c T) sigma pi) in
  let v := common_utility T sigma pi e c in
  (forall delta j, market_shares m a' safe (fun k => delta k - v k) j = market_shares m a safe delta j) /\
  (forall x j, contraction m a' safe bounds shares (fun k => x k - v k) j = contraction m a safe bounds shares x j - v j) /\
  (forall t max start, fltb (Num 0) (t_rtol t) = false ->
     match simple_iterator (delta_function m a safe bounds shares) t max (flat (mJ m) start),
           simple_iterator (delta_function m a' safe bounds shares) t max (flat (mJ m) (fun j => start j - v j)) with
     | Some o, Some o' => o_x o' = lowered v (o_x o) /\ o_converged o' = o_converged o /\
         s_iterations (o_st o') = s_iterations (o_st o) /\ s_evaluations (o_st o') = s_evaluations (o_st o)
     | None, None => True
     | _, _ => False
     end) /\
  (forall t max scheme factor b start, fltb (Num 0) (t_rtol t) = false ->
     match squarem_iterator (delta_function m a safe bounds shares) t max scheme factor b (flat (mJ m) start),
           squarem_iterator (delta_function m a' safe bounds shares) t max scheme factor b (flat (mJ m) (fun j => start j - v j)) with
     | Some q, Some q' => o_x (q_out q') = lowered v (o_x (q_out q)) /\ o_converged (q_out q') = o_converged (q_out q) /\ q_steps q' = q_steps q /\
         s_iterations (o_st (q_out q')) = s_iterations (o_st (q_out q)) /\ s_evaluations (o_st (q_out q')) = s_evaluations (o_st (q_out q))
     | None, None => True
     | _, _ => False
     end).
Proof.
  intros V L a a' v. assert (E : forall i j, mu_of (recentered e c T) sigma pi i j = mu_of T sigma pi i j + v j) by (intros; apply recentered_mu, L).
  split; [|split; [|split]]; intros.
  - apply shares_moved, E.
  - apply contraction_moved, E.
  - unfold a'. rewrite (moved_simple m I w (mu_of T sigma pi) _ v safe bounds shares V E t max start H).
    fold a. destruct (simple_iterator _ t max (flat (mJ m) start)); cbn; [repeat split|trivial].
  - unfold a'. rewrite (moved_squarem m I w (mu_of T sigma pi) _ v safe bounds shares V E t max scheme factor b start H).
    fold a. destruct (squarem_iterator _ t max scheme factor b (flat (mJ m) start)); cbn; [repeat split|trivial].
Qed.
Print Assumptions C150_mean_utilities.

(** If linear parameters on the same characteristics are lowered by what coefficients gain, results at all prices are the same. *)
Theorem C150_counterfactuals M (T : tastes) delta sigma pi e c q :
  (forall k, (k < fK2 M)%nat -> r_types T k = RCLinear) -> (forall d j, c d j = c d O) ->
  let M1 := tastes_at M T delta sigma pi in let a := fun k => common_change T sigma pi e c k O in let M2 := compensated a q M1 in
  (forall k, (k < fK2 M)%nat -> a k <> 0 -> uses (fX2 M k) = true -> (q k < fK1 M)%nat /\ fX1 M (q k) = fX2 M k) ->
  (forall k, (k < fK2 M)%nat -> a k <> 0 -> uses (fX2 M k) = false -> (q k < fK1 M)%nat /\ uses (fX1 M (q k)) = false) ->
  (forall k j i, (k < fK2 M)%nat -> fcoef M2 k j i = random_coefficients (recentered e c T) sigma pi k j i) /\
  (forall x j, shares_at M2 x j = shares_at M1 x j) /\
  (forall x j k, shares_jacobian M2 x j k = shares_jacobian M1 x j k) /\
  (forall observed j k, elasticities M2 observed j k = elasticities M1 observed j k) /\
  (forall solve O observed, compute_costs solve M2 O observed = compute_costs solve M1 O observed) /\
  (forall O costs t max start, equilibrium_prices M2 O costs t max start = equilibrium_prices M1 O costs t max start) /\
  (forall avail mask x, consumer_surplus M2 avail mask x = consumer_surplus M1 avail mask x).
Proof.
  intros L C M1 a M2 HU HN. assert (S : same_utilities M1 M2) by (exact (compensated_same a q M1 HU HN)).
  split; [|split; [|split; [|split; [|split; [|split]]]]]; intros.
  - rewrite recentered_coefficients by (apply L; assumption). unfold M2, compensated, M1. cbn [fcoef tastes_at]. f_equal. unfold a, common_change. f_equal.
    apply sumn_ext. intros d _. rewrite (C d j). reflexivity.
  - rewrite (same_shares M1 M2 S). reflexivity.
  - rewrite (same_jacobian M1 M2 S). reflexivity.
  - rewrite (same_elasticities M1 M2 S). reflexivity.
  - apply (same_costs M1 M2 S).
  - apply (same_prices M1 M2 S).
  - apply (same_surplus M1 M2 S).
Qed.
Print Assumptions C150_counterfactuals.

(** Two products and two agents; prices have a random coefficient that depends on income, and income is measured from its mean. *)
Definition income_tastes : tastes := mk_tastes 1 1 (fun _ => RCLinear) (fun _ _ => 0) (fun i _ _ => INR i) (fun j _ => INR j + 1).
Definition price_column : SupplyModel.column := mk_column true (fun _ x => x) (fun _ _ => 1) (fun _ _ => 0).
Definition income_market : full_market :=
  mk_full_market (mk_market 2 0 (fun _ => O) false (fun _ => 0) 1) 2 (fun _ => / 2) 1 (fun _ => price_column) (fun _ => - (3))
    1 (fun _ => price_column) (fun _ _ _ => 0) (fun j => INR j + 1) (fun _ => 0) (fun j _ => INR j + 1).
Example C150_applies : let c := fun _ _ : nat => - / 2 in
  valid_market (fm income_market) /\ (forall k, (k < r_K2 income_tastes)%nat -> r_types income_tastes k = RCLinear) /\
  (forall d j : nat, c d j = c d O) /\ common_change income_tastes (fun _ _ => 0) (fun _ _ => 1) (fun _ => 0) c 0 0 = - / 2 /\
  (forall k, (k < fK2 income_market)%nat -> uses (fX2 income_market k) = true /\ (0 < fK1 income_market)%nat /\ fX1 income_market 0 = fX2 income_market k) /\
  common_utility income_tastes (fun _ _ => 0) (fun _ _ => 1) (fun _ => 0) c 1 = - (1).
Proof.
  intro c. split; [constructor; cbn; intros; try lia; try lra; congruence|]. split; [reflexivity|]. split; [reflexivity|].
  split; [unfold common_change; cbn; unfold c; lra|]. split; [intros k Hk; cbn; repeat split; lia|]. unfold common_utility, common_change. cbn. unfold c. lra.
Qed.

(** With a lognormal coefficient no change in mean utilities makes up for measuring nodes from elsewhere. *)
Theorem C150_lognormal : exists m I w (T : tastes) sigma pi e c, valid_market m /\ mJ m = 1%nat /\ sumn I w = 1 /\
  ~ exists v, forall u, market_shares m (mk_agents I w (mu_of (recentered e c T) sigma pi)) true (fun _ => u - v) 0
                      = market_shares m (mk_agents I w (mu_of T sigma pi)) true (fun _ => u) 0.
Proof.
  do 8 eexists. split; [exact constant_valid|]. split; [reflexivity|]. split; [|exact lognormal_moves]. cbn. lra.
Qed.
Print Assumptions C150_lognormal.
