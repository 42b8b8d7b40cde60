(** Property theorems about textbook formulas of logit and nested logit demand (C157). *)
From Coq Require Import Reals Lra Lia ZArith List Bool Arith.
From Verif Require Import Base DemandModel DemandProofs SupplyModel SupplySpec SupplyProofs WelfareModel ClosedSpec ClosedProofs.
Local Open Scope R_scope.

(** * C157 Without random coefficients, results are the textbook formulas of logit and nested logit *)

(** Derivatives of shares with respect to prices, which are symmetric. *)
Theorem C157_derivatives M a x j k : common_tastes M a -> (j < mJ (fm M))%nat -> (k < mJ (fm M))%nat ->
  shares_jacobian M x j k = share_slope (fm M) a (shares_at M x) j k.
Proof. intros T. exact (jacobian_closed M a T x j k). Qed.
Print Assumptions C157_derivatives.
Theorem C157_symmetric M a x j k : common_tastes M a -> (j < mJ (fm M))%nat -> (k < mJ (fm M))%nat ->
  shares_jacobian M x j k = shares_jacobian M x k j.
Proof. intros T Hj Hk. rewrite !(jacobian_closed M a T x) by assumption. exact (slope_symmetric M a T x j k Hj Hk). Qed.
Print Assumptions C157_symmetric.
(** What all products together lose goes to the outside good, whatever the nests. *)
Theorem C157_outside M a x k : common_tastes M a -> (k < mJ (fm M))%nat ->
  sumn (mJ (fm M)) (fun j => shares_jacobian M x j k) = - (a * outside_share (fm M) (shares_at M x) * shares_at M x k).
Proof. intros T. exact (outside_slope M a T x k). Qed.
Print Assumptions C157_outside.

(** Elasticities.  Without nests, cross elasticities with respect to a price are the same for all other products. *)
Theorem C157_elasticities M a observed j k : common_tastes M a -> (j < mJ (fm M))%nat -> (k < mJ (fm M))%nat ->
  observed j = shares_at M (var0 M) j ->
  elasticities M observed j k =
    (let s := shares_at M (var0 M) in let r := nesting (fm M) j in let w := share_in_nest (fm M) s j in
     if Nat.eqb j k then - (a * var0 M j * (1 - r * w - (1 - r) * s j) / (1 - r))
     else if together (fm M) j k then a * var0 M k * (s k + r / (1 - r) * share_in_nest (fm M) s k)
     else a * var0 M k * s k).
Proof.
  intros T Hj Hk E. rewrite (elasticities_closed M a T (var0 M) observed j k eq_refl Hj Hk E). cbv zeta.
  rewrite (elasticity_forms M a T (var0 M) j k Hj Hk). reflexivity.
Qed.
Print Assumptions C157_elasticities.
Theorem C157_plain_elasticities M a observed j k : common_tastes M a -> mH (fm M) = O -> (j < mJ (fm M))%nat -> (k < mJ (fm M))%nat ->
  observed j = shares_at M (var0 M) j ->
  elasticities M observed j k = if Nat.eqb j k then - (a * var0 M j * (1 - shares_at M (var0 M) j)) else a * var0 M k * shares_at M (var0 M) k.
Proof.
  intros T HH Hj Hk E. rewrite (C157_elasticities M a observed j k T Hj Hk E). cbv zeta. unfold nesting, together. rewrite HH. cbn [Nat.eqb negb andb].
  destruct (Nat.eqb j k); [field|reflexivity].
Qed.
Print Assumptions C157_plain_elasticities.

(** Diversion ratios.  Buyers of a product that leave it go elsewhere in proportion to shares, and more often stay in its nest. *)
Theorem C157_diversion M a x j k : common_tastes M a -> 0 < a -> (j < mJ (fm M))%nat -> (k < mJ (fm M))%nat ->
  diversion_ratios (mJ (fm M)) (shares_jacobian M x) j k =
    (let s := shares_at M x in let r := nesting (fm M) j in
     let factor := (1 - r) / (1 - r * share_in_nest (fm M) s j - (1 - r) * s j) in
     if Nat.eqb j k then outside_share (fm M) s * factor
     else if together (fm M) j k then (s k + r / (1 - r) * share_in_nest (fm M) s k) * factor else s k * factor).
Proof. intros T. exact (diversion_closed M a T x j k). Qed.
Print Assumptions C157_diversion.
(** Without nests, where those who must leave go (long-run diversion) is where those who are about to leave go. *)
Theorem C157_long_run M a j k : common_tastes M a -> 0 < a -> mH (fm M) = O -> (j < mJ (fm M))%nat -> (k < mJ (fm M))%nat ->
  let s := shares_at M (var0 M) in
  let long := long_run_diversion (fm M) (agents_with M (compute_mu M (X2_0 M))) (delta0 M) s j k in
  long = (if Nat.eqb j k then outside_share (fm M) s else s k) / (1 - s j) /\
  long = diversion_ratios (mJ (fm M)) (shares_jacobian M (var0 M)) j k.
Proof.
  intros T Ha HH Hj Hk s long. unfold long, s. rewrite (long_run_closed M a T HH j k Hj Hk). fold s. split; [destruct (Nat.eqb j k); reflexivity|].
  rewrite (diversion_closed M a T (var0 M) j k Ha Hj Hk). cbv zeta. fold s. unfold nesting, together. rewrite HH. cbn [Nat.eqb negb andb].
  replace (1 - 0 * share_in_nest (fm M) s j - (1 - 0) * s j) with (1 - s j) by ring. unfold Rdiv. destruct (Nat.eqb j k); ring.
Qed.
Print Assumptions C157_long_run.

(** Markups of firms that own all of their products. *)
Theorem C157_markups M a firm solve observed j : common_tastes M a -> 0 < a -> exact_solver (mJ (fm M)) solve ->
  (forall k, (k < mJ (fm M))%nat -> observed k = shares_at M (var0 M) k) ->
  snd (compute_costs solve M (owned firm) observed) = false -> (j < mJ (fm M))%nat ->
  let s := shares_at M (var0 M) in let b := markup_factor (fm M) firm s in
  var0 M j - fst (compute_costs solve M (owned firm) observed) j = b j / (a * (1 - firm_total (fm M) firm (fun k => s k * b k) j)).
Proof.
  intros T Ha S Ob B Hj s b. refine (markup_formula M a T (var0 M) firm (fun j => var0 M j - fst (compute_costs solve M (owned firm) observed) j) Ha _ j Hj).
  intros k Hk. rewrite <- (Ob k Hk). exact (costs_markup_equation solve M (owned firm) observed S B k Hk).
Qed.
Print Assumptions C157_markups.
(** Without nests, all products of a firm have the same markup, which depends on the total share of the firm only. *)
Theorem C157_plain_markups M a firm solve observed j : common_tastes M a -> 0 < a -> mH (fm M) = O -> exact_solver (mJ (fm M)) solve ->
  (forall k, (k < mJ (fm M))%nat -> observed k = shares_at M (var0 M) k) ->
  snd (compute_costs solve M (owned firm) observed) = false -> (j < mJ (fm M))%nat ->
  var0 M j - fst (compute_costs solve M (owned firm) observed) j = / (a * (1 - firm_total (fm M) firm (shares_at M (var0 M)) j)).
Proof.
  intros T Ha HH S Ob B Hj. rewrite (C157_markups M a firm solve observed j T Ha S Ob B Hj). 
  assert (F : forall k, markup_factor (fm M) firm (shares_at M (var0 M)) k = 1) by (intros k; unfold markup_factor, nesting; rewrite HH; cbn [Nat.eqb]; field).
  rewrite F. unfold Rdiv. rewrite Rmult_1_l. f_equal. f_equal. f_equal. unfold firm_total. apply sumn_ext. intros k _. rewrite F, Rmult_1_r. reflexivity.
Qed.
Print Assumptions C157_plain_markups.
(** In any Bertrand equilibrium, products of a firm in one nest have the same markup, given by the same formula at equilibrium shares. *)
Theorem C157_equilibrium M a firm costs p : common_tastes M a -> 0 < a -> good_columns M p ->
  bertrand (mJ (fm M)) (owned firm) costs (shares_at M) p ->
  let s := shares_at M p in let b := markup_factor (fm M) firm s in
  (forall j, (j < mJ (fm M))%nat -> p j = costs j + b j / (a * (1 - firm_total (fm M) firm (fun k => s k * b k) j))) /\
  (forall j k, (j < mJ (fm M))%nat -> (k < mJ (fm M))%nat -> firm j = firm k -> mH (fm M) = O \/ together (fm M) j k = true -> p j - costs j = p k - costs k).
Proof.
  intros T Ha G Q s b. assert (E : markup_equation (mJ (fm M)) (owned firm) (shares_jacobian M p) (shares_at M p) (fun j => p j - costs j)).
  { apply bertrand_iff_markup; [apply (ct_valid M a T)|exact G|intros j _; unfold owned; rewrite Z.eqb_refl; reflexivity|exact Q]. }
  split.
  - intros j Hj. pose proof (markup_formula M a T p firm (fun j => p j - costs j) Ha E j Hj) as X. cbv beta in X. unfold b, s. rewrite <- X. ring.
  - intros j k Hj Hk F C. apply (markup_common M a T p firm (fun j => p j - costs j) Ha E j k Hj Hk F). destruct C as [HH|C]; [left|right; exact C].
    unfold nesting. rewrite HH. cbn [Nat.eqb]. split; reflexivity.
Qed.
Print Assumptions C157_equilibrium.

(** Consumer surplus is minus the logarithm of the share of the outside good, in units of money. *)
Theorem C157_surplus M a x : common_tastes M a -> 0 < a -> eps_scale (fm M) = 1 ->
  consumer_surplus M (fun _ => None) None x = - ln (outside_share (fm M) (shares_at M x)) / a.
Proof. intros T Ha E. exact (surplus_closed M a T x E Ha). Qed.
Print Assumptions C157_surplus.

(** Two firms and three products in two nests. *)
Definition nested_prices (H : nat) : full_market :=
  mk_full_market (mk_market 3 H (fun j => if Nat.ltb j 2 then 0 else 1)%nat true (fun h => if Nat.eqb h 0 then / 2 else / 4) 1) 2 (fun _ => / 2)
    1 (fun _ => mk_column true (fun _ x => x) (fun _ _ => 1) (fun _ _ => 0)) (fun _ => - (2))
    0 (fun _ => mk_column false (fun _ _ => 0) (fun _ _ => 0) (fun _ _ => 0)) (fun _ _ _ => 0) (fun j => INR j) (fun j => INR j) (fun _ _ => 0).
Example C157_applies : common_tastes (nested_prices 2) 2 /\ common_tastes (nested_prices 0) 2 /\ (forall x, good_columns (nested_prices 2) x) /\
  nesting (fm (nested_prices 2)) 0 = / 2 /\ together (fm (nested_prices 2)) 0 1 = true /\ together (fm (nested_prices 2)) 0 2 = false.
Proof.
  assert (V : forall H, (H = 0 \/ H = 2)%nat -> valid_market (fm (nested_prices H))).
  { intros H [-> | ->]; constructor; cbn; try lia; try lra; try congruence; intros; repeat match goal with |- context [if ?b then _ else _] => destruct b end; try lia; lra. }
  split; [|split; [|split]].
  - constructor; [apply V; right; reflexivity|reflexivity|cbn; lra|]. intros j x _. cbn. lra.
  - constructor; [apply V; left; reflexivity|reflexivity|cbn; lra|]. intros j x _. cbn. lra.
  - intros x. split; intros k j _ Hk _; cbn in Hk; [|lia]. cbn. exact (derivable_pt_lim_id (x j)).
  - repeat split.
Qed.
