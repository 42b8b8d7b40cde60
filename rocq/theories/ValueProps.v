(** C169: what products are worth to consumers can be read off choice probabilities. *)
From Coq Require Import Reals Lra Lia List Bool Arith.
From Verif Require Import Base DemandModel DemandProofs DemandShares DemandElim DemandDeriv SupplyModel SupplySpec SupplyProofs WelfareModel WelfareSpec WelfareProofs ValueSpec ValueProofs.
Local Open Scope R_scope.

(** The surplus of an agent is minus the logarithm of the probability of choosing nothing, in units of money. *)
Theorem C169_surplus M i a avail mask safe x :
  valid_market (fm M) -> (forall y, good_columns M y) -> eps_scale (fm M) = 1 -> no_income_effects (mJ (fm M)) (price_utility M i) a ->
  let nothing := 1 - sumn (mJ (fm M)) (fst (probabilities_linear (fm M) (choice_with true (avail i) None mask) safe (update_delta M x) (update_mu M x i))) in
  0 < nothing /\ individual_surplus M (fun i => option_map (fun (b : nat -> bool) j => indR (b j)) (avail i)) mask x i = - ln nothing / a.
Proof. intros V G E N. exact (surplus_outside M i a V G E N avail mask safe x). Qed.
Print Assumptions C169_surplus.

(** So what any change of prices, of availability, or of products is worth is a ratio of two such probabilities. *)
Theorem C169_changes M i a avail avail' mask mask' safe x y :
  valid_market (fm M) -> (forall y, good_columns M y) -> eps_scale (fm M) = 1 -> no_income_effects (mJ (fm M)) (price_utility M i) a ->
  let nothing (avail : nat -> option (nat -> bool)) mask x :=
    1 - sumn (mJ (fm M)) (fst (probabilities_linear (fm M) (choice_with true (avail i) None mask) safe (update_delta M x) (update_mu M x i))) in
  individual_surplus M (fun i => option_map (fun (b : nat -> bool) j => indR (b j)) (avail' i)) mask' y i
  - individual_surplus M (fun i => option_map (fun (b : nat -> bool) j => indR (b j)) (avail i)) mask x i
  = ln (nothing avail mask x / nothing avail' mask' y) / a.
Proof.
  intros V G E N. cbv zeta. destruct (surplus_outside M i a V G E N avail mask safe x) as [P ->]. destruct (surplus_outside M i a V G E N avail' mask' safe y) as [P' ->].
  assert (L : forall u v, 0 < u -> 0 < v -> - ln v / a - - ln u / a = ln (u / v) / a).
  { intros u v Hu Hv. unfold Rdiv. rewrite ln_mult, ln_Rinv by (try apply Rinv_0_lt_compat; assumption). ring. }
  exact (L _ _ P P').
Qed.
Print Assumptions C169_changes.

(** Without nests, or if whole nests are eliminated, products are worth minus the logarithm of the probability that none of them is chosen. *)
Theorem C169_value M i a avail mask safe x :
  valid_market (fm M) -> (forall y, good_columns M y) -> eps_scale (fm M) = 1 -> no_income_effects (mJ (fm M)) (price_utility M i) a -> 0 < a ->
  (mH (fm M) <> O -> forall h, (h < mH (fm M))%nat -> 0 <= grho (fm M) h) ->
  mH (fm M) = O \/ whole_nests (mJ (fm M)) (gid (fm M)) mask ->
  let av := fun i => option_map (fun (b : nat -> bool) j => indR (b j)) (avail i) in
  let c := chosen (mJ (fm M)) mask (fst (probabilities_linear (fm M) (choice_with true (avail i) None None) safe (update_delta M x) (update_mu M x i))) in
  0 <= c < 1 /\ individual_surplus M av None x i - individual_surplus M av (Some mask) x i = - ln (1 - c) / a.
Proof.
  intros V G E N Ha Hr K. destruct (value_bound M i a V G E N avail mask safe x Ha Hr) as (A & _ & B & _). exact (conj A (B K)).
Qed.
Print Assumptions C169_value.

(** They are worth no more than that if some of a nest is eliminated, and strictly less if what is left of the nest is a closer substitute than other products. *)
Theorem C169_nests M i a avail mask safe x :
  valid_market (fm M) -> (forall y, good_columns M y) -> eps_scale (fm M) = 1 -> no_income_effects (mJ (fm M)) (price_utility M i) a -> 0 < a ->
  (mH (fm M) <> O -> forall h, (h < mH (fm M))%nat -> 0 <= grho (fm M) h) ->
  let av := fun i => option_map (fun (b : nat -> bool) j => indR (b j)) (avail i) in
  let c := chosen (mJ (fm M)) mask (fst (probabilities_linear (fm M) (choice_with true (avail i) None None) safe (update_delta M x) (update_mu M x i))) in
  let value := individual_surplus M av None x i - individual_surplus M av (Some mask) x i in
  let offered := fun j => match avail i with Some b => b j = true | None => True end in
  value <= - ln (1 - c) / a /\
  (forall j k, mH (fm M) <> O -> (j < mJ (fm M))%nat -> (k < mJ (fm M))%nat -> gid (fm M) j = gid (fm M) k -> 0 < grho (fm M) (gid (fm M) j) ->
     offered j -> offered k -> mask j = true -> mask k = false -> value < - ln (1 - c) / a).
Proof.
  intros V G E N Ha Hr av c value offered. destruct (value_bound M i a V G E N avail mask safe x Ha Hr) as (_ & A & _ & B). split; [exact A|].
  intros j k H0 Hj Hk Eg Rp Oj Ok Mj Mk. apply (B j k); try assumption; unfold offered, included in *; rewrite !andb_true_r; destruct (avail i); auto.
Qed.
Print Assumptions C169_nests.

(** Heterogeneity makes products worth more than market shares alone suggest. *)
Theorem C169_heterogeneity M a avail mask safe x :
  valid_market (fm M) -> (forall y, good_columns M y) -> eps_scale (fm M) = 1 -> 0 < a ->
  (forall i, (i < fI M)%nat -> no_income_effects (mJ (fm M)) (price_utility M i) a) ->
  (forall i, (i < fI M)%nat -> 0 <= fw M i) -> sumn (fI M) (fw M) = 1 ->
  (mH (fm M) <> O -> forall h, (h < mH (fm M))%nat -> 0 <= grho (fm M) h) ->
  mH (fm M) = O \/ whole_nests (mJ (fm M)) (gid (fm M)) mask ->
  let av := fun i => option_map (fun (b : nat -> bool) j => indR (b j)) (avail i) in
  let c := fun i => chosen (mJ (fm M)) mask (fst (probabilities_linear (fm M) (choice_with true (avail i) None None) safe (update_delta M x) (update_mu M x i))) in
  let s := sumn (fI M) (fun i => c i * fw M i) in
  s < 1 /\ s / a <= - ln (1 - s) / a <= consumer_surplus M av None x - consumer_surplus M av (Some mask) x.
Proof. intros V G E Ha N Hw Sw Hr K. exact (heterogeneous M a avail mask safe x V G E Ha N Hw Sw Hr K). Qed.
Print Assumptions C169_heterogeneity.

(** Three products in two nests and two types of consumers who differ in how much they like the first product; one unit of money is worth two utils. *)
Definition liked_products : full_market :=
  mk_full_market (mk_market 3 2 (fun j => if Nat.ltb j 2 then 0 else 1)%nat true (fun h => if Nat.eqb h 0 then / 2 else / 4) 1) 2 (fun i => if Nat.eqb i 0 then / 4 else 3 / 4)
    1 (fun _ => mk_column true (fun _ x => x) (fun _ _ => 1) (fun _ _ => 0)) (fun _ => - (2))
    1 (fun _ => mk_column false (fun _ _ => 0) (fun _ _ => 0) (fun _ _ => 0)) (fun _ _ i => INR i) (fun j => INR j) (fun j => INR j) (fun j _ => if Nat.eqb j 0 then 1 else 0).
Example C169_applies : valid_market (fm liked_products) /\ (forall y, good_columns liked_products y) /\
  (forall i, no_income_effects (mJ (fm liked_products)) (price_utility liked_products i) 2) /\ sumn (fI liked_products) (fw liked_products) = 1 /\
  (forall h, 0 < grho (fm liked_products) h) /\
  whole_nests 3 (gid (fm liked_products)) (fun j => Nat.ltb j 2) /\ ~ whole_nests 3 (gid (fm liked_products)) (fun j => Nat.ltb j 1) /\
  update_mu liked_products (fun _ => 0) 0 0 <> update_mu liked_products (fun _ => 0) 1 0.
Proof.
  split; [|split; [|split; [|split; [|split; [|split; [|split]]]]]].
  - constructor; cbn; try lia; try lra; try congruence; intros; repeat match goal with |- context [if ?b then _ else _] => destruct b end; try lia; lra.
  - intro y. split; intros k j U Hk _; cbn in Hk, U; [|discriminate U]. cbn. exact (derivable_pt_lim_id (y j)).
  - intros i x k j Hj Hk. unfold price_utility, update_delta, update_mu, compute_mu. cbn.
    destruct (Nat.eqb_spec j k) as [ -> | Ne].
    + match goal with |- derivable_pt_lim ?f _ _ => apply (dlim_ext (plus_fct (mult_real_fct (- (2)) id) (fct_cte (f 0)))) end.
      * intro t. unfold upd, plus_fct, mult_real_fct, fct_cte, id. rewrite Nat.eqb_refl. ring.
      * eapply dlim_eq; [|apply derivable_pt_lim_plus; [apply derivable_pt_lim_scal, derivable_pt_lim_id|apply derivable_pt_lim_const]]. ring.
    + match goal with |- derivable_pt_lim ?f _ _ => eapply (dlim_ext (fct_cte (f 0))) end; [|apply derivable_pt_lim_const]. intro t. unfold upd, fct_cte. rewrite (proj2 (Nat.eqb_neq _ _) Ne). reflexivity.
  - cbn. lra.
  - intro h. cbn. destruct (Nat.eqb h 0); lra.
  - intros j k Hj Hk. change ((if Nat.ltb j 2 then 0 else 1)%nat = (if Nat.ltb k 2 then 0 else 1)%nat -> Nat.ltb j 2 = Nat.ltb k 2). destruct (Nat.ltb j 2), (Nat.ltb k 2); congruence.
  - intro W. specialize (W 0 1)%nat. cbn in W. discriminate (W ltac:(lia) ltac:(lia) eq_refl).
  - unfold update_mu, compute_mu. cbn. lra.
Qed.
