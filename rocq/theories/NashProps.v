(** Property theorems about best prices: C144. *)
From Coq Require Import Reals ZArith Lra Lia List Bool Arith.
From Verif Require Import Base FltModel IterModel DemandModel DemandSpec DemandProofs DemandDeriv DemandElim SupplyModel SupplySpec SupplyProofs
  PostModel WelfareModel EquilModel EquilSpec EquilMarket EquilWitness NashSpec NashProofs NashWitness.
Import ListNotations.
Local Open Scope R_scope.

(** C144: profits of a firm are the sum of those that compute_profits returns for its products, and zero for other IDs. *)
Theorem C144_profits :
  forall M ids costs p f,
  firm_profit (mJ (fm M)) ids costs (shares_at M) f p
  = sumn (mJ (fm M)) (fun j => if Z.eqb (nth j ids 0%Z) f then WelfareModel.profits p (shares_at M p) costs j else 0).
Proof. reflexivity. Qed.
Print Assumptions C144_profits.

(** C144: in plain logit markets, prices that solve first order conditions are better for each firm than any others that it could
    choose for its products, not only than nearby ones. *)
Theorem C144_prices_maximize_profits :
  forall M a costs ids p, plain_logit M a ->
  bertrand (mJ (fm M)) (firm_ownership ids) costs (shares_at M) p -> strict_nash (mJ (fm M)) ids costs (shares_at M) p.
Proof. intros M a costs ids p L. exact (bertrand_strict_nash M a L costs ids p). Qed.
Print Assumptions C144_prices_maximize_profits.

(** C144: whatever demand, a Nash equilibrium solves first order conditions, and so it is a fixed point of the price iteration. *)
Theorem C144_nash_is_stationary :
  forall M ids costs p, valid_market (fm M) -> good_columns M p ->
  nash (mJ (fm M)) ids costs (shares_at M) p -> bertrand (mJ (fm M)) (firm_ownership ids) costs (shares_at M) p.
Proof. exact nash_bertrand. Qed.
Print Assumptions C144_nash_is_stationary.

(** C144: so plain logit markets have exactly one Nash equilibrium, and price iterations from any prices converge to it. *)
Theorem C144_one_nash_equilibrium :
  forall M a costs ids, plain_logit M a ->
  exists p, nash (mJ (fm M)) ids costs (shares_at M) p /\
    (forall q, nash (mJ (fm M)) ids costs (shares_at M) q -> forall j, (j < mJ (fm M))%nat -> q j = p j) /\
    (forall start, prices_converge (mJ (fm M)) (fun n => Nat.iter n (price_contraction M (firm_ownership ids) costs) start) p).
Proof.
  intros M a costs ids L. destruct (equilibrium_exists M a L costs ids) as [p P]. exists p.
  split; [apply (bertrand_strict_nash M a L costs ids p P)|]. split.
  - intros q Q j Hj. apply (equilibrium_unique M a L costs ids q p); [|exact P|exact Hj].
    apply nash_bertrand; [apply L|apply (plain_good M a L)|exact Q].
  - intros start. exact (iterates_converge M a L costs ids p start P).
Qed.
Print Assumptions C144_one_nash_equilibrium.

(** C144: a merger is profitable in the new equilibrium, although others react: the merged firm earns more than its parts did. *)
Theorem C144_mergers_pay :
  forall M a costs before after p q f, plain_logit M a -> merger (mJ (fm M)) before after ->
  bertrand (mJ (fm M)) (firm_ownership before) costs (shares_at M) p ->
  bertrand (mJ (fm M)) (firm_ownership after) costs (shares_at M) q ->
  firm_profit (mJ (fm M)) after costs (shares_at M) f p <= firm_profit (mJ (fm M)) after costs (shares_at M) f q /\
  (forall j k, (j < mJ (fm M))%nat -> (k < mJ (fm M))%nat -> nth j after 0%Z = f -> nth k after 0%Z = f ->
     nth j before 0%Z <> nth k before 0%Z ->
     firm_profit (mJ (fm M)) after costs (shares_at M) f p < firm_profit (mJ (fm M)) after costs (shares_at M) f q).
Proof. intros M a costs before after p q f L G B B'. exact (joint_profits M a costs before after p q L G B B' f). Qed.
Print Assumptions C144_mergers_pay.

(** C144: with random coefficients on prices, prices that solve first order conditions, and that are even better than all nearby
    prices, need not be best, even if all consumers dislike high prices, there is one product, and its shares are logit shares for
    each type of consumers. *)
Theorem C144_heterogeneity_refuted :
  ~ (forall M ids costs p, valid_market (fm M) -> mH (fm M) = O -> (forall x, good_columns M x) ->
     (forall i, (i < fI M)%nat -> 0 < fw M i) -> sumn (fI M) (fw M) = 1 ->
     (forall x i j, (i < fI M)%nat -> (j < mJ (fm M))%nat -> utility_derivatives M false x i j < 0) ->
     bertrand (mJ (fm M)) (firm_ownership ids) costs (shares_at M) p -> local_nash (mJ (fm M)) ids costs (shares_at M) p ->
     nash (mJ (fm M)) ids costs (shares_at M) p).
Proof.
  intros H. assert (B := two_types_better). apply (Rlt_not_le _ _ B).
  refine (H two_types [1%Z] rationalizing (var0 two_types) two_types_valid eq_refl two_types_good _ _ _ two_types_stationary two_types_local 1%Z _ _).
  - intros i _. cbn. lra.
  - cbn. lra.
  - intros x i j _ Hj. apply two_types_dislike. exact Hj.
  - intros k Hk Hn. cbn in Hk. assert (k = O) by lia. subst k. contradiction Hn. reflexivity.
Qed.
Print Assumptions C144_heterogeneity_refuted.

Example C144_applies :
  plain_logit two_products 1 /\ merger (mJ (fm two_products)) [1; 2]%Z [1; 1]%Z /\
  (exists p, bertrand (mJ (fm two_products)) (firm_ownership [1; 2]%Z) (fun _ => 0) (shares_at two_products) p) /\
  (exists p, bertrand (mJ (fm two_products)) (firm_ownership [1; 1]%Z) (fun _ => 0) (shares_at two_products) p) /\
  valid_market (fm two_types) /\ (forall p, good_columns two_types p) /\
  (exists p, nash (mJ (fm two_products)) [1; 2]%Z (fun _ => 0) (shares_at two_products) p).
Proof.
  split; [exact two_products_plain|]. split; [exact two_products_merge|].
  split; [exact (equilibrium_exists two_products 1 two_products_plain _ _)|]. split; [exact (equilibrium_exists two_products 1 two_products_plain _ _)|].
  split; [exact two_types_valid|]. split; [exact two_types_good|].
  destruct (equilibrium_exists two_products 1 two_products_plain (fun _ => 0) [1; 2]%Z) as [p P]. exists p.
  exact (proj1 (bertrand_strict_nash two_products 1 two_products_plain _ _ p P)).
Qed.
