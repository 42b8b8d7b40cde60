(** Two products in two orders, and agents that are split, to which theorems about orders apply. *)
From Coq Require Import Reals ZArith Lra Lia List Bool Arith FunctionalExtensionality.
From Verif Require Import Base FltModel IterModel DemandModel DemandProofs SupplyModel SupplyProofs DerivModel GradModel
  WelfareModel PostModel EndoSpec EndoProofs EquilWitness OrderSpec OrderProofs.
Import ListNotations.
Local Open Scope R_scope.

Definition swap (j : nat) : nat := match j with O => 1%nat | 1%nat => O | _ => j end.

Lemma swap_renumbers : renumbers 2 swap.
Proof.
  split; [|split].
  - intros [|[|j]] Hj; cbn; lia.
  - intros [|[|j]] [|[|k]] Hj Hk E; cbn in E; lia.
  - intros [|[|j]] Hj; cbn; lia.
Qed.

(** Two nests, one for each product, and a first product that is sold at a lower price. *)
Definition two_nests : market := mk_market 2 2 (fun j => j) true (fun h => if Nat.eqb h 0 then / 2 else / 4) 1.
Lemma two_nests_differ : gid (reorder_market swap two_nests) 0 <> gid two_nests 0.
Proof. cbn. lia. Qed.

(** An economy with one market of two products, sold by two firms, that differ in their instruments and exogenous variables. *)
Definition pair_market : economy_market :=
  mk_economy_market two_products
    (mk_tastes 0 0 (fun _ => RCLinear) (fun _ _ => 0) (fun _ _ _ => 0) (fun _ _ => 0)) (fun _ => O)
    (fun j k => INR j) (fun j k => 1 + INR j) (fun _ => / 3) (firm_ownership [1; 2]%Z).
Definition pair_economy : economy :=
  mk_economy 1 (fun _ => pair_market) 2 (fun n => (O, n)) true false 1 (fun _ => true) 1 (fun _ => true)
    (fun _ => []) [] 1 1 (fun n _ => INR n + 1) (fun n _ => 2 * INR n + 1) (fun _ _ => 1) (fun _ _ => 1)
    (fun n m => if Nat.eqb n m then 1 else 0) true.
Definition swapped_economy : economy :=
  mk_economy 1 (fun _ => reorder_economy_market swap pair_market) 2 (fun n => (O, n)) true false 1 (fun _ => true) 1 (fun _ => true)
    (fun _ => []) [] 1 1 (fun n k => ec_X pair_economy (stacked_rows 2 swap n) k) (fun n k => ec_Z pair_economy (stacked_rows 2 swap n) k)
    (fun _ _ => 1) (fun _ _ => 1) (fun n m => ec_absorb pair_economy (stacked_rows 2 swap n) (stacked_rows 2 swap m)) true.
Definition pair_solve (n : nat) : solver := if Nat.eqb n 2 then diagonal_solver else fun _ b => (b, true).
Definition pair_point : point := mk_point (fun _ _ => 0) (fun _ _ => 0) (fun _ => 0) (fun _ => - (1)) (fun _ => 0).

Lemma swapped_rows : reordered_rows swap (fun _ => swap) pair_economy swapped_economy.
Proof.
  split; [exact swap_renumbers|]. split; [intros; exact swap_renumbers|]. split.
  - intros n Hn. cbn in Hn |- *. split; [lia|]. split; [exact Hn|]. reflexivity.
  - repeat split; reflexivity.
Qed.

Lemma pair_solve_exact n : exact_solver n (pair_solve n).
Proof.
  unfold pair_solve. destruct (Nat.eqb_spec n 2) as [->|_]; [exact diagonal_solver_exact|]. intros A b E. discriminate E.
Qed.

Lemma two_products_nonsingular : nonsingular 2 (capital_delta two_products (firm_ownership [1; 2]%Z) (var0 two_products)).
Proof.
  apply (capital_delta_nonsingular two_products).
  - apply flat_valid. lia.
  - split; [cbn; lia|]. split; [intros; cbn; lra|]. split; [|intros X; cbn in X; congruence].
    intros i j _ _. unfold two_products. rewrite flat_derivative. lra.
  - split; [intros [|[|j]] Hj; cbn in Hj; try lia; reflexivity|].
    intros [|[|j]] [|[|k]] Hj Hk; cbn in Hj, Hk; try lia; unfold firm_ownership; cbn; lra.
Qed.

Lemma swapped_costs :
  snd (compute_costs diagonal_solver (reorder_full swap two_products) (fun j k => firm_ownership [1; 2]%Z (swap j) (swap k))
         (fun j => shares_at two_products (var0 two_products) (swap j))) = false.
Proof.
  unfold compute_costs, compute_eta.
  set (A := capital_delta _ _ _). set (B := capital_delta two_products (firm_ownership [1; 2]%Z) (var0 two_products)).
  assert (E : forall j k, (j < 2)%nat -> (k < 2)%nat -> A j k = B (swap j) (swap k)).
  { intros j k Hj Hk. unfold A, B. apply (capital_delta_reorder 2 swap swap_renumbers two_products eq_refl (firm_ownership [1; 2]%Z) (var0 two_products)); assumption. }
  assert (N : forall j, (j < 2)%nat -> B j j <> 0).
  { intros j Hj. unfold B. rewrite capital_delta_jacobian. change (var0 two_products) with (fun _ : nat => 0).
    unfold two_products. rewrite flat_jacobian by lia. rewrite Nat.eqb_refl. unfold firm_ownership. rewrite Z.eqb_refl.
    cbn [INR]. lra. }
  assert (Z1 : B 0%nat 1%nat = 0) by (unfold B, capital_delta; match goal with |- _ * firm_ownership ?l ?i ?j = _ => change (firm_ownership l i j) with 0 end; apply Rmult_0_r).
  assert (Z2 : B 1%nat 0%nat = 0) by (unfold B, capital_delta; match goal with |- _ * firm_ownership ?l ?i ?j = _ => change (firm_ownership l i j) with 0 end; apply Rmult_0_r).
  assert (N0 := N 0%nat ltac:(lia)). assert (N1 := N 1%nat ltac:(lia)).
  assert (E00 := E 0%nat 0%nat ltac:(lia) ltac:(lia)). assert (E01 := E 0%nat 1%nat ltac:(lia) ltac:(lia)).
  assert (E10 := E 1%nat 0%nat ltac:(lia) ltac:(lia)). assert (E11 := E 1%nat 1%nat ltac:(lia) ltac:(lia)).
  cbn [swap] in *. unfold diagonal_solver.
  destruct (Req_EM_T (A 0%nat 1%nat) 0); [|lra]. destruct (Req_EM_T (A 1%nat 0%nat) 0); [|lra].
  destruct (Req_EM_T (A 0%nat 0%nat) 0); [lra|]. destruct (Req_EM_T (A 1%nat 1%nat) 0); [lra|]. reflexivity.
Qed.

Lemma diagonal_flag A b b' : snd (diagonal_solver A b) = snd (diagonal_solver A b').
Proof.
  unfold diagonal_solver. destruct (Req_EM_T (A 0%nat 1%nat) 0), (Req_EM_T (A 1%nat 0%nat) 0), (Req_EM_T (A 0%nat 0%nat) 0), (Req_EM_T (A 1%nat 1%nat) 0); reflexivity.
Qed.

Lemma pair_coefficients e : e_tastes e = e_tastes pair_market \/ e_tastes e = reorder_tastes swap (e_tastes pair_market) ->
  (fun k j i => random_coefficients (e_tastes e) (v_sigma pair_point) (v_pi pair_point) k j i) = fun _ _ _ => 0.
Proof.
  intros H. apply functional_extensionality. intros k. apply functional_extensionality. intros j. apply functional_extensionality. intros i.
  destruct H as [-> | ->]; unfold random_coefficients; cbn; ring.
Qed.
Lemma pair_market_is : market_of pair_market pair_point (fun _ => 0) = two_products.
Proof. unfold market_of. rewrite pair_coefficients by (left; reflexivity). reflexivity. Qed.
Lemma swapped_market_is : market_of (reorder_economy_market swap pair_market) pair_point (fun _ => 0) = reorder_full swap two_products.
Proof. unfold market_of. rewrite pair_coefficients by (right; reflexivity). reflexivity. Qed.

(** Two agents with different tastes for prices, and the same distribution as three agents. *)
Definition two_agents : full_market :=
  mk_full_market (fm two_products) 2 (fun _ => / 2) 1 (fX1 two_products) (fbeta two_products)
    1 (fX1 two_products) (fun k j i => - INR i) (fun _ => 1) (fun _ => 0) (fun _ _ => 1).
Definition three_weights (i : nat) : R := match i with O => / 4 | 1%nat => / 2 | _ => / 4 end.
Definition three_coefficients (k j i : nat) : R := match i with 1%nat => - (1) | _ => 0 end.

Lemma three_agents_same :
  same_distribution 2 (fun _ => / 2) (agent_coefficients two_agents) 3 three_weights
    (agent_coefficients (with_agents two_agents 3 three_weights three_coefficients)).
Proof.
  intros f. cbn [sumn].
  change (agent_coefficients (with_agents two_agents 3 three_weights three_coefficients) 0) with (fun _ _ : nat => 0).
  change (agent_coefficients (with_agents two_agents 3 three_weights three_coefficients) 1) with (fun _ _ : nat => - (1)).
  change (agent_coefficients (with_agents two_agents 3 three_weights three_coefficients) 2) with (fun _ _ : nat => 0).
  assert (E0 : agent_coefficients two_agents 0 = (fun _ _ => 0)).
  { unfold agent_coefficients, two_agents. cbn [fcoef INR]. apply functional_extensionality. intros k. apply functional_extensionality. intros j. ring. }
  assert (E1 : agent_coefficients two_agents 1 = (fun _ _ => - (1))) by reflexivity.
  rewrite E0, E1. unfold three_weights. field.
Qed.

(** Two products with different marginal utilities of income. *)
Definition unlike_products : full_market := flat_market 2 (fun j => 1 + INR j).
Lemma unlike_numerator (avail : nat -> option (nat -> R)) : (forall i, avail i = None) ->
  surplus_numerator (fm unlike_products) (avail 0%nat) None (update_delta unlike_products (var0 unlike_products))
    (update_mu unlike_products (var0 unlike_products) 0) = ln 3.
Proof.
  intros Ha. rewrite Ha. unfold surplus_numerator. set (r := utility_reduction _ _).
  change (Nat.eqb (mH (fm unlike_products)) 0) with true. cbv iota zeta. change (mJ (fm unlike_products)) with 2%nat.
  assert (U : forall j, surplus_utilities (fm unlike_products) (update_delta unlike_products (var0 unlike_products))
      (update_mu unlike_products (var0 unlike_products) 0) j = 0).
  { intros j. unfold surplus_utilities, update_delta, update_mu, compute_mu. cbn. field. }
  rewrite (sumn_ext 2 _ (fun _ => exp (- r))) by (intros j Hj; unfold restrict_choice; cbn [c_availability c_eliminate c_eliminate_ids]; rewrite U; f_equal; ring).
  cbn [sumn]. replace (exp (- r) + (0 + exp (- r) + exp (- r))) with (3 * exp (- r)) by ring.
  rewrite ln_mult by (try apply exp_pos; lra). rewrite ln_exp. ring.
Qed.

Lemma surplus_depends : exists M p, renumbers (mJ (fm M)) p /\
  consumer_surplus (reorder_full p M) (fun _ => None) None (fun j => var0 M (p j))
  <> consumer_surplus M (fun _ => None) None (var0 M).
Proof.
  exists unlike_products, swap. split; [exact swap_renumbers|].
  assert (N := unlike_numerator (fun _ => None) (fun _ => eq_refl)). cbv beta in N.
  unfold consumer_surplus. change (fI (reorder_full swap unlike_products)) with 1%nat. change (fI unlike_products) with 1%nat.
  cbn [sumn]. unfold individual_surplus.
  assert (E := delta_reorder swap unlike_products (var0 unlike_products)).
  assert (E' := mu_reorder swap unlike_products (var0 unlike_products)).
  assert (E'' := derivatives_reorder swap unlike_products false (var0 unlike_products)).
  change (fun j : nat => var0 unlike_products (swap j)) with (var0 (reorder_full swap unlike_products)) in *.
  rewrite E, E', E''. clear E E' E''.
  assert (E := numerator_reorder 2 swap swap_renumbers (fm unlike_products) None None (update_delta unlike_products (var0 unlike_products))
    (update_mu unlike_products (var0 unlike_products) 0) eq_refl ltac:(lia)).
  cbn [option_map] in E. change (fm (reorder_full swap unlike_products)) with (reorder_market swap (fm unlike_products)).
  rewrite E, N. unfold unlike_products. rewrite !flat_derivative. cbn [swap INR fw flat_market reorder_full].
  assert (L := ln_increasing 1 3 ltac:(lra) ltac:(lra)). rewrite ln_1 in L.
  intros F. apply (Rmult_eq_compat_r 2) in F. field_simplify in F. lra.
Qed.
