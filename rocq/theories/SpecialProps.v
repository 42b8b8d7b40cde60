(** Theorems about models that are special cases of others: C148. *)
From Coq Require Import Reals Lra Lia List Bool Arith.
From Verif Require Import Base DemandModel DemandSpec DemandProofs DemandShares SupplyModel SupplySpec SupplyProofs DerivModel WelfareModel SpecialSpec SpecialProofs.
Local Open Scope R_scope.

(** Nests that have one product or a zero nesting parameter do not matter for choice probabilities, also when
    products are unavailable or eliminated, ... *)
Theorem C148_nests_probabilities m safe safe' out avail el ids delta mu j : valid_market m -> idle_nests m -> (j < mJ m)%nat ->
  fst (probabilities_linear m (choice_with out avail el ids) safe delta mu) j
  = fst (probabilities_linear (without_nests m) (choice_with out avail el ids) safe' delta mu) j.
Proof. exact (idle_probabilities m safe safe' out avail el ids delta mu j). Qed.
Print Assumptions C148_nests_probabilities.

(** ... nor for mean utilities: closed forms are the same and contractions have the same fixed points, ... *)
Theorem C148_nests_delta m shares : valid_market m -> idle_nests m -> (forall j, (j < mJ m)%nat -> 0 < shares j) ->
  (forall j, (j < mJ m)%nat -> closed_form_delta m shares j = closed_form_delta (without_nests m) shares j) /\
  forall a safe safe' x, valid_agents a ->
  ((forall j, (j < mJ m)%nat -> contraction m a safe (None, None) shares x j = x j) <->
   (forall j, (j < mJ m)%nat -> contraction (without_nests m) a safe' (None, None) shares x j = x j)).
Proof.
  intros V I S. split; [intros j Hj; exact (idle_closed_form m shares j V I Hj)|]. intros a safe safe' x A. exact (idle_fixed_points m a safe safe' shares x V A I S).
Qed.
Print Assumptions C148_nests_delta.

(** ... nor for what is computed from them. *)
Theorem C148_nests_outputs M : valid_market (fm M) -> idle_nests (fm M) ->
  let M0 := full_without_nests M in
  (forall x j, (j < mJ (fm M))%nat -> shares_at M x j = shares_at M0 x j) /\
  (forall x j k, good_columns M x -> (j < mJ (fm M))%nat -> (k < mJ (fm M))%nat -> shares_jacobian M x j k = shares_jacobian M0 x j k) /\
  (forall O x j k, good_columns M x -> (j < mJ (fm M))%nat -> (k < mJ (fm M))%nat -> capital_delta M O x j k = capital_delta M0 O x j k) /\
  (forall observed j k, good_columns M (var0 M) -> (j < mJ (fm M))%nat -> (k < mJ (fm M))%nat -> elasticities M observed j k = elasticities M0 observed j k) /\
  (forall j k, good_columns M (var0 M) -> (j < mJ (fm M))%nat -> (k < mJ (fm M))%nat ->
     diversion_ratios (mJ (fm M)) (shares_jacobian M (var0 M)) j k = diversion_ratios (mJ (fm M)) (shares_jacobian M0 (var0 M)) j k) /\
  (forall O costs p, bertrand (mJ (fm M)) O costs (shares_at M) p <-> bertrand (mJ (fm M)) O costs (shares_at M0) p) /\
  (forall avail mask x, consumer_surplus M (fun i => option_map (fun b j => indR (b j)) (avail i)) mask x
     = consumer_surplus M0 (fun i => option_map (fun b j => indR (b j)) (avail i)) mask x).
Proof.
  intros V I M0. split; [exact (idle_shares_at M V I)|]. split; [exact (idle_jacobian M V I)|]. split; [exact (idle_capital_delta M V I)|].
  split; [exact (idle_elasticities M V I)|]. split; [exact (idle_diversion M V I)|]. split; [exact (idle_bertrand M V I)|exact (idle_consumer_surplus M V I)].
Qed.
Print Assumptions C148_nests_outputs.

(** One nest with a zero nesting parameter for two products, and a nest of its own for a third. *)
Definition idle_market : market := mk_market 3 2 (fun j => if Nat.ltb j 2 then 0 else 1)%nat true (fun h => if Nat.eqb h 0 then 0 else / 2) 1.
Example C148_nests_applies : valid_market idle_market /\ idle_nests idle_market /\ mH idle_market <> O /\
  (exists j k, (j < 3)%nat /\ (k < 3)%nat /\ j <> k /\ gid idle_market j = gid idle_market k) /\ rho idle_market 2 = / 2 /\
  valid_market (fm (mk_full_market idle_market 1 (fun _ => 1)
    1 (fun _ => mk_column true (fun _ x => x) (fun _ _ => 1) (fun _ _ => 0)) (fun _ => - (1))
    0 (fun _ => mk_column false (fun _ _ => 0) (fun _ _ => 0) (fun _ _ => 0)) (fun _ _ _ => 0) (fun _ => 1) (fun _ => 0) (fun _ _ => 0))) /\
  good_columns (mk_full_market idle_market 1 (fun _ => 1)
    1 (fun _ => mk_column true (fun _ x => x) (fun _ _ => 1) (fun _ _ => 0)) (fun _ => - (1))
    0 (fun _ => mk_column false (fun _ _ => 0) (fun _ _ => 0) (fun _ _ => 0)) (fun _ _ _ => 0) (fun _ => 1) (fun _ => 0) (fun _ _ => 0)) (fun _ => 1).
Proof.
  assert (V : valid_market idle_market).
  { constructor; cbn [idle_market mJ mH gid grho rho_multi eps_scale]; try lia; try lra; try congruence.
    - intros _ j _. destruct (Nat.ltb j 2); lia.
    - intros _ h _. destruct (Nat.eqb h 0); lra. }
  split; [exact V|]. split.
  { intros j k Hj Hk. cbn [idle_market mJ] in Hj, Hk. cbn [idle_market gid grho]. destruct (Nat.ltb_spec j 2), (Nat.ltb_spec k 2); intro E; try discriminate; [right; reflexivity|left; lia]. }
  split; [discriminate|]. split; [exists 0%nat, 1%nat; repeat split; lia|]. split; [reflexivity|]. split; [exact V|].
  split; intros k j _ Hk _; cbn in Hk; [|lia]. cbn. exact (derivable_pt_lim_id 1).
Qed.

(** A nest with two products and a positive nesting parameter does matter. *)
Theorem C148_nests_matter : exists m delta, valid_market m /\ mH m <> O /\
  fst (probabilities_linear m full_choice true delta (fun _ => 0)) 0%nat <> fst (probabilities_linear (without_nests m) full_choice true delta (fun _ => 0)) 0%nat.
Proof. exact nests_matter. Qed.
Print Assumptions C148_nests_matter.

(** Without heterogeneity (zero sigma and pi, whatever types of random coefficients), shares are those of one
    agent, times the sum of integration weights. *)
Theorem C148_zero_tastes M (T : tastes) delta x j safe : valid_market (fm M) -> (j < mJ (fm M))%nat ->
  let zero := fun _ _ : nat => 0 in
  let M' := tastes_at M T delta zero zero in
  market_shares (fm M) (agents_with M' (update_mu M' x)) safe (update_delta M' x) j
  = sumn (fI M) (fw M) * fst (probabilities_linear (fm M) full_choice safe (update_delta M' x) (update_mu M' x 0)) j.
Proof. exact (zero_tastes M T delta x j safe). Qed.
Print Assumptions C148_zero_tastes.

(** If in addition random coefficients are linear (so that they are zero) and weights sum to one, closed forms are the
    mean utilities that the contraction looks for. *)
Theorem C148_closed_form m a safe shares : alike_agents a (mJ m) (fun _ => 0) -> valid_market m -> valid_agents a -> sumn (aI a) (aw a) = 1 ->
  (mH m <> O -> forall h, (h < mH m)%nat -> 0 <= grho m h) -> (forall k, (k < mJ m)%nat -> 0 < shares k) -> sumn (mJ m) shares < 1 ->
  forall x, (forall j, (j < mJ m)%nat -> x j = closed_form_delta m shares j) <->
            (forall j, (j < mJ m)%nat -> contraction m a safe (None, None) shares x j = x j).
Proof. exact (closed_form_fixed m a safe shares). Qed.
Print Assumptions C148_closed_form.

Example C148_zero_tastes_applies : exists m a, valid_market m /\ valid_agents a /\ alike_agents a (mJ m) (fun _ => 0) /\ sumn (aI a) (aw a) = 1 /\ (forall h, (h < mH m)%nat -> 0 <= grho m h) /\ (1 < aI a)%nat /\ aw a 0%nat <> aw a 1%nat.
Proof.
  exists idle_market, (mk_agents 2 (fun i => if Nat.eqb i 0 then / 4 else 3 / 4) (fun _ _ => 0)).
  split; [exact (proj1 C148_nests_applies)|]. split.
  { split; cbn; [intros i _; destruct (Nat.eqb i 0); lra|exists 0%nat; cbn; split; [lia|lra]]. }
  split; [intros i j _ _; reflexivity|]. cbn. split; [lra|]. split; [intros h _; destruct h; cbn; lra|]. split; [lia|lra].
Qed.

(** Without nests, a scale of errors is a unit of utilities. *)
Theorem C148_scale m c safe safe' delta mu j : valid_market m -> mH m = O -> (j < mJ m)%nat ->
  fst (probabilities_linear m c safe delta mu) j
  = fst (probabilities_linear (unit_scale m) c safe' (fun k => delta k / eps_scale m) (fun k => mu k / eps_scale m)) j.
Proof. exact (unit_probabilities m c safe safe' delta mu j). Qed.
Print Assumptions C148_scale.

Example C148_scale_applies : exists m, valid_market m /\ mH m = O /\ eps_scale m <> 1 /\ mJ m = 2%nat.
Proof.
  exists (mk_market 2 0 (fun _ => O) false (fun _ => 0) (/ 2)).
  split; [constructor; cbn; intros; try lia; try lra; congruence|]. cbn. repeat split. lra.
Qed.
