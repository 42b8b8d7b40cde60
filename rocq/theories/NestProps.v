(** Theorems about tangents for restricted choice sets, and about second choices with nesting. *)
From Coq Require Import Reals Lra Lia List Bool Arith.
From Verif Require Import Base DemandSpec DemandModel DemandProofs SupplyModel SupplySpec DerivModel MicroModel NestModel NestSpec.
From Verif Require MicroSpec DerivParam DemandDeriv NestProofs.
Import ListNotations.
Local Open Scope R_scope.

(** ** C92: tangents for restricted choice sets

    Products may be unavailable or eliminated, one by one or by ID, and the outside option may be eliminated; nesting
    is optional.  A parameter in Sigma or Pi moves utilities, and mean utilities move along. *)
Theorem C92_taste_tangents : forall m out avail el ids T sigma pi p i dpath d j,
  valid_market m -> nonempty (mJ m) out avail el ids -> DerivParam.in_range T p ->
  (forall k, (k < mJ m)%nat -> derivable_pt_lim (fun y => dpath y k) (np_value p sigma pi) (d k)) ->
  (j < mJ m)%nat ->
  let c := choice_of out avail el ids in
  let t := np_value p sigma pi in
  let mu := fun y => mu_of T (sigma_with p sigma y) (pi_with p pi y) i in
  let P := choice_probabilities m c (dpath t) (mu t) in
  let C := choice_conditionals m c (dpath t) (mu t) in
  let tangent := utility_tangent m P C (fun k => r_X2 T k (np_row p) * effective_characteristic T sigma pi p i k) in
  derivable_pt_lim (fun y => choice_probabilities m c (dpath y) (mu y) j) t (total_tangent m P C (fst tangent) d j) /\
  (mH m <> O -> derivable_pt_lim (fun y => choice_conditionals m c (dpath y) (mu y) j) t (total_cond_tangent m C (snd tangent) d j)).
Proof.
  intros m out avail el ids T sigma pi p i dpath d j V NE HR Dd Hj c t mu P C tangent.
  assert (Dm : forall k, (k < mJ m)%nat -> derivable_pt_lim (fun y => mu y k) t (r_X2 T k (np_row p) * effective_characteristic T sigma pi p i k))
    by (intros; apply DerivParam.mu_derive, HR).
  split; [|intro HH].
  - exact (NestProofs.choice_prob_moves m out avail el ids V NE dpath mu t d _ Dd Dm j Hj).
  - exact (NestProofs.choice_cond_moves m out avail el ids V dpath mu t d _ Dd Dm j HH Hj).
Qed.
Print Assumptions C92_taste_tangents.

(** A nesting parameter. *)
Theorem C92_nesting_tangents : forall m out avail el ids flag t dpath mu d j,
  valid_market m -> mH m <> O -> nonempty (mJ m) out avail el ids ->
  (forall h, flag h = true -> grho m h = t) -> t < 1 ->
  (rho_multi m = false -> forall h, (h < mH m)%nat -> flag h = true) ->
  (forall k, (k < mJ m)%nat -> derivable_pt_lim (fun y => dpath y k) t (d k)) ->
  (j < mJ m)%nat ->
  let c := choice_of out avail el ids in
  let P := choice_probabilities m c (dpath t) mu in
  let C := choice_conditionals m c (dpath t) mu in
  let tangent := choice_rho_tangent m c P C (dpath t) mu (fun h => indR (flag h)) in
  derivable_pt_lim (fun y => choice_probabilities (nested_at m flag y) c (dpath y) mu j) t (total_tangent m P C (fst tangent) d j) /\
  derivable_pt_lim (fun y => choice_conditionals (nested_at m flag y) c (dpath y) mu j) t (total_cond_tangent m C (snd tangent) d j).
Proof.
  intros m out avail el ids flag t dpath mu d j V HH NE Hf Ht Ha Dd Hj c P C tangent. split.
  - exact (NestProofs.choice_prob_nesting m out avail el ids V HH NE flag t Hf Ht Ha dpath mu d Dd j Hj).
  - exact (NestProofs.choice_cond_nesting m out avail el ids V HH flag t Hf Ht Ha dpath mu d Dd j Hj).
Qed.
Print Assumptions C92_nesting_tangents.

(** Three products in two nests; the first is unavailable, and the outside option is eliminated. *)
Definition two_nests : market := mk_market 3 2 (fun j => match j with O => O | _ => 1%nat end) true (fun h => match h with O => / 4 | _ => / 2 end) 1.
Example C92_applies : valid_market two_nests /\ mH two_nests <> O /\
  nonempty (mJ two_nests) false (Some (fun j => negb (Nat.eqb j 0))) None None /\
  (forall h, Nat.eqb h 0 = true -> grho two_nests h = / 4) /\
  (forall k, (k < 3)%nat -> derivable_pt_lim (fun y => (fun y k => INR k * y) y k) (/ 4) (INR k)).
Proof.
  split; [|split; [discriminate|split; [|split]]].
  - constructor; cbn; try lra; try lia; intros; try discriminate; try reflexivity.
    + destruct j; lia.
    + destruct h; lra.
  - right. exists 1%nat. split; [cbn; lia|reflexivity].
  - intros h E. apply Nat.eqb_eq in E. subst h. reflexivity.
  - intros k _. eapply DemandDeriv.dlim_eq; [|apply (DemandDeriv.dlim_scal (INR k) (fun y => y)), DemandDeriv.dlim_id]. ring.
Qed.

(** ** C93: second choices

    With nesting parameters between zero and one, probabilities of first and second choices form a distribution,
    whose first margin are choice probabilities. *)
Theorem C93_distribution : forall m avail delta mu,
  valid_market m -> (mH m <> O -> forall h, (h < mH m)%nat -> 0 <= grho m h) -> can_choose (mJ m) avail ->
  let q := nested_cell m (row avail) None delta mu in
  (forall c, cell_in_range (mJ m) c -> 0 <= q c) /\
  (forall a, MicroSpec.in_range (mJ m) a -> q (Pair a a) = 0) /\
  (forall a, MicroSpec.in_range (mJ m) a -> sum_over (MicroSpec.all_options (mJ m)) (fun b => q (Pair a b)) = q (Single a)) /\
  sum_over (MicroSpec.all_options (mJ m)) (fun a => q (Single a)) = 1.
Proof.
  intros m avail delta mu V R0 A q. split; [|split; [|split]].
  - intros c Hc. exact (NestProofs.cell_nonneg m avail delta mu V R0 c Hc).
  - intros [j|] _; unfold q, nested_cell; cbn [cell_probability]; [rewrite Nat.eqb_refl|]; reflexivity.
  - exact (NestProofs.cell_rows m avail delta mu V A).
  - exact (NestProofs.single_rows m avail delta mu).
Qed.
Print Assumptions C93_distribution.

(** Any population of people with preferences that accounts for choice probabilities, with all options and with one
    option less, makes these first and second choices. *)
Theorem C93_population : forall m avail delta mu pop offered,
  explains pop offered (mJ m) (choice_probabilities m (unrestricted (row avail)) delta mu)
    (fun j => choice_probabilities m (without_product (row avail) None j) delta mu)
    (choice_probabilities m (without_outside (row avail)) delta mu) ->
  forall a b, MicroSpec.in_range (mJ m) a -> MicroSpec.in_range (mJ m) b ->
  joint_share pop offered a b = nested_cell m (row avail) None delta mu (Pair a b).
Proof. intros m avail delta mu pop offered. apply NestProofs.population_cells. Qed.
Print Assumptions C93_population.

(** The documentation gives the product of the probability of the first choice and that of the second once the first
    is eliminated (background.rst 280-292).  With nesting it is wrong: those who choose a product tend to substitute
    within its nest. *)
Theorem C93_product_refuted : exists m delta mu pop,
  valid_market m /\ (forall h, (h < mH m)%nat -> 0 <= grho m h < 1) /\
  let p := choice_probabilities m (unrestricted None) delta mu in
  let elim := fun j => choice_probabilities m (without_product None None j) delta mu in
  explains pop (fun _ => true) (mJ m) p elim (choice_probabilities m (without_outside None) delta mu) /\
  p 0%nat * elim 0%nat 1%nat < joint_share pop (fun _ => true) (Some 0%nat) (Some 1%nat).
Proof.
  exists NestProofs.twins, (fun _ => 0), (fun _ => 0), NestProofs.twins_people.
  split; [exact NestProofs.twins_valid|]. split; [intros; cbn; assert (R0 := NestProofs.twins_rho_range); lra|].
  cbv zeta. split; [exact NestProofs.twins_explained|].
  rewrite NestProofs.twins_p, NestProofs.twins_e by lia. cbn. lra.
Qed.
Print Assumptions C93_product_refuted.

Example C93_applies : valid_market two_nests /\ (forall h, (h < 2)%nat -> 0 <= grho two_nests h) /\
  can_choose 3 (Some (fun j => negb (Nat.eqb j 0))).
Proof.
  split; [apply C92_applies|]. split; [intros [|h] _; cbn; lra|]. exists 1%nat. split; [lia|reflexivity].
Qed.

(** ** C94: Jacobians of micro moment parts, with or without nesting *)

(** Probabilities of first and second choices move as their tangents say, also when IDs are eliminated. *)
Theorem C94_cells : forall m avail ids deltap mup t dd dmu c,
  valid_market m -> can_choose (mJ m) avail ->
  (forall k, (k < mJ m)%nat -> derivable_pt_lim (fun y => deltap y k) t (dd k)) ->
  (forall k, (k < mJ m)%nat -> derivable_pt_lim (fun y => mup y k) t (dmu k)) ->
  cell_in_range (mJ m) c ->
  derivable_pt_lim (fun y => nested_cell m (row avail) ids (deltap y) (mup y) c) t
    (nested_cell_tangent m (row avail) ids (deltap t) (mup t) dd (choice_utility_tangent m (deltap t) (mup t) dmu) c).
Proof. intros m avail ids deltap mup t dd dmu c V A. exact (NestProofs.cell_utility_moves m avail ids V A deltap mup t dd dmu c). Qed.
Print Assumptions C94_cells.

(** Parts that add up markets: a parameter that moves utilities. *)
Theorem C94_taste_jacobian : forall (ds : list (market * (nat -> option (nat -> bool)) * survey * (R -> nat -> R) * (R -> nat -> nat -> R) * (nat -> R) * (nat -> nat -> R))) t,
  (forall m avail s deltap mup dd dmu, In (m, avail, s, deltap, mup, dd, dmu) ds ->
    valid_market m /\ (mH m <> O -> forall h, (h < mH m)%nat -> 0 <= grho m h) /\ s_J s = mJ m /\
    (forall i, (i < s_I s)%nat -> can_choose (mJ m) (avail i) /\ 0 <= s_agent_weight s i) /\ (forall i c, 0 <= s_weight s i c) /\
    (forall k, (k < mJ m)%nat -> derivable_pt_lim (fun y => deltap y k) t (dd k)) /\
    (forall i k, (i < s_I s)%nat -> (k < mJ m)%nat -> derivable_pt_lim (fun y => mup y i k) t (dmu i k)) /\
    (forall j, (j < mJ m)%nat -> sumn (s_I s) (fun i => s_agent_weight s i *
       nested_cell_tangent m (row (avail i)) None (deltap t) (mup t i) dd (choice_utility_tangent m (deltap t) (mup t i) (dmu i)) (Single (Some j))) = 0)) ->
  let surveys := fun x => map (fun '(m, avail, s, deltap, mup, dd, dmu) =>
    (s, fun i => nested_cell m (row (avail i)) None (deltap x) (mup x i))) ds in
  let tangents := map (fun '(m, avail, s, deltap, mup, dd, dmu) =>
    (s, (fun i => nested_cell m (row (avail i)) None (deltap t) (mup t i)),
     (fun i => nested_cell_tangent m (row (avail i)) None (deltap t) (mup t i) dd (choice_utility_tangent m (deltap t) (mup t i) (dmu i))))) ds in
  sum_over (surveys t) (fun d => survey_denominator (fst d) (snd d)) <> 0 ->
  derivable_pt_lim (fun x => surveys_part (surveys x)) t (surveys_part_jacobian tangents).
Proof. exact NestProofs.taste_part_moves. Qed.
Print Assumptions C94_taste_jacobian.

(** A nesting parameter inside the unit interval. *)
Theorem C94_nesting_jacobian : forall (ds : list (market * (nat -> option (nat -> bool)) * survey * (nat -> bool) * (R -> nat -> R) * (nat -> nat -> R) * (nat -> R))) t,
  0 < t < 1 ->
  (forall m avail s flag deltap mu dd, In (m, avail, s, flag, deltap, mu, dd) ds ->
    valid_market m /\ mH m <> O /\ (forall h, (h < mH m)%nat -> 0 <= grho m h) /\ s_J s = mJ m /\
    (forall h, flag h = true -> grho m h = t) /\
    (rho_multi m = false -> forall h, (h < mH m)%nat -> flag h = true) /\
    (forall i, (i < s_I s)%nat -> can_choose (mJ m) (avail i) /\ 0 <= s_agent_weight s i) /\ (forall i c, 0 <= s_weight s i c) /\
    (forall k, (k < mJ m)%nat -> derivable_pt_lim (fun y => deltap y k) t (dd k)) /\
    (forall j, (j < mJ m)%nat -> sumn (s_I s) (fun i => s_agent_weight s i *
       nested_cell_tangent m (row (avail i)) None (deltap t) (mu i) dd (choice_nesting_tangent m (deltap t) (mu i) (fun h => indR (flag h))) (Single (Some j))) = 0)) ->
  let surveys := fun x => map (fun '(m, avail, s, flag, deltap, mu, dd) =>
    (s, fun i => nested_cell (nested_at m flag x) (row (avail i)) None (deltap x) (mu i))) ds in
  let tangents := map (fun '(m, avail, s, flag, deltap, mu, dd) =>
    (s, (fun i => nested_cell m (row (avail i)) None (deltap t) (mu i)),
     (fun i => nested_cell_tangent m (row (avail i)) None (deltap t) (mu i) dd (choice_nesting_tangent m (deltap t) (mu i) (fun h => indR (flag h)))))) ds in
  sum_over (surveys t) (fun d => survey_denominator (fst d) (snd d)) <> 0 ->
  derivable_pt_lim (fun x => surveys_part (surveys x)) t (surveys_part_jacobian tangents).
Proof. exact NestProofs.nesting_part_moves. Qed.
Print Assumptions C94_nesting_jacobian.

Example C94_applies :
  let mup := fun y i (k : nat) => match i with O => y | _ => - y end in
  let dmu := fun i (k : nat) => match i with O => 1 | _ => - 1 end in
  (forall i k, derivable_pt_lim (fun y => mup y i k) 0 (dmu i k)) /\
  (forall j, (j < 3)%nat -> sumn 2 (fun i => / 2 * nested_cell_tangent two_nests (row None) None (fun _ => 0) (mup 0 i) (fun _ => 0)
     (choice_utility_tangent two_nests (fun _ => 0) (mup 0 i) (dmu i)) (Single (Some j))) = 0) /\
  survey_denominator (NestProofs.two_people 3) (fun i => nested_cell two_nests (row None) None (fun _ => 0) (mup 0 i)) <> 0 /\
  (forall j, (j < 1)%nat -> sumn 2 (fun i => / 2 * nested_cell_tangent NestProofs.alone (row None) None (fun _ => 0) (fun _ => 0) (fun _ => 0)
     (choice_nesting_tangent NestProofs.alone (fun _ => 0) (fun _ => 0) (fun h => indR true)) (Single (Some j))) = 0).
Proof.
  intros mup dmu. split; [|split; [|split]].
  - intros [|i] k; unfold mup, dmu; [apply DemandDeriv.dlim_id|]. apply (DemandDeriv.dlim_opp (fun y => y)), DemandDeriv.dlim_id.
  - assert (E : forall i, mup 0 i = (fun _ => 0)).
    { intro i. apply FunctionalExtensionality.functional_extensionality. intro k. unfold mup. destruct i; lra. }
    intros j Hj. cbn [sumn]. rewrite !E. exact (NestProofs.two_people_shares two_nests (fun _ => 0) (fun _ => 0) (proj1 C92_applies) j Hj).
  - rewrite (NestProofs.two_people_denominator two_nests); [lra|apply C92_applies|]. intros _ [|h] _; cbn; lra.
  - exact NestProofs.alone_shares.
Qed.
