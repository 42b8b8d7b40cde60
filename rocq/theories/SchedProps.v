(** Theorems about market-by-market computation.  Each is closed by a lemma proved elsewhere. *)
From Coq Require Import Reals Lra Lia ZArith List Bool Arith Permutation Sorted.
From Verif Require Import Base BasicsModel BasicsSpec BasicsProofs SchedModel SchedSpec SchedProofs.
Import ListNotations.
Local Open Scope nat_scope.

(* ---------- C19: stacked outputs ---------- *)

(** Product-level outputs: row i of the result belongs to product i, for every interleaving of markets,
    every arrival order and any numbers of columns (missing ones are NaN), provided that some market has
    several products or rows are already sorted by market. *)
Theorem C19_product_rows {V} (ids : list Z) p u order (f : Z -> list (list V)) :
  is_stable_argsort ids p -> sorted_distinct ids u -> Permutation order u ->
  (forall t, In t ids -> List.length (f t) = List.length (rows_of ids t)) ->
  (List.length ids <> List.length u \/ StronglySorted Z.le ids) ->
  forall i j, i < List.length ids ->
  combine_arrays (List.length ids) (market_indices ids p) u order f i j
  = element (f (nth i ids 0%Z)) (rank ids i) j.
Proof. exact (combine_products ids p u order f). Qed.
Print Assumptions C19_product_rows.

(** Market-level outputs: one row per sorted market ID. *)
Theorem C19_market_rows {V} (ids : list Z) p u order (f : Z -> list (list V)) :
  is_stable_argsort ids p -> sorted_distinct ids u -> Permutation order u ->
  (forall t, In t ids -> List.length (f t) = 1) ->
  forall q j, q < List.length u ->
  combine_arrays (List.length ids) (market_indices ids p) u order f q j = element (f (nth q u 0%Z)) 0 j.
Proof. intros _. exact (combine_markets ids p u order f). Qed.
Print Assumptions C19_market_rows.

(** The output for a single selected market is that market's matrix. *)
Theorem C19_single_market {V} (ids : list Z) p t (f : Z -> list (list V)) :
  is_stable_argsort ids p -> In t ids ->
  (List.length (f t) = 1 \/ List.length (f t) = List.length (rows_of ids t)) ->
  forall i j, i < List.length (f t) ->
  combine_arrays (List.length ids) (market_indices ids p) [t] [t] f i j = element (f t) i j.
Proof. exact (combine_single ids p t f). Qed.
Print Assumptions C19_single_market.

(** When every market has exactly one product, product-level outputs are put in sorted market order, not
    in the order of the product data. *)
Theorem C19_product_rows_refuted :
  exists (ids : list Z) p u (f : Z -> list (list Z)),
    is_stable_argsort ids p /\ sorted_distinct ids u /\
    (forall t, In t ids -> List.length (f t) = List.length (rows_of ids t)) /\
    exists i, i < List.length ids /\
      combine_arrays (List.length ids) (market_indices ids p) u u f i 0
      <> element (f (nth i ids 0%Z)) (rank ids i) 0.
Proof.
  exists [2; 1]%Z, [1; 0], [1; 2]%Z, (fun t => [[t]]).
  split; [exact (stable_argsort_correct [2; 1]%Z)|].
  split; [exact (group_unique_spec [2; 1]%Z [1; 0] (stable_is_argsort _ _ (stable_argsort_correct [2; 1]%Z)))|].
  split; [intros t [<-|[<-|[]]]; reflexivity|].
  exists 0. split; [simpl; lia|]. discriminate.
Qed.
Print Assumptions C19_product_rows_refuted.

Example C19_applies :
  let ids := [5; 2; 5; 1]%Z in let p := stable_argsort ids in let u := [1; 2; 5]%Z in
  let f := fun t : Z => if Z.eqb t 5 then [[50; 51]; [52; 53]]%Z else [[t]] in
  is_stable_argsort ids p /\ sorted_distinct ids u /\ Permutation [5; 1; 2]%Z u /\
  (forall t, In t ids -> List.length (f t) = List.length (rows_of ids t)) /\
  List.length ids <> List.length u /\
  combine_arrays (List.length ids) (market_indices ids p) u [5; 1; 2]%Z f 2 1 = Some 53%Z.
Proof.
  cbv zeta. split; [exact (stable_argsort_correct _)|].
  split; [exact (group_unique_spec _ _ (stable_is_argsort _ _ (stable_argsort_correct [5; 2; 5; 1]%Z)))|].
  split.
  { apply (perm_trans (l' := [1; 5; 2]%Z)); [apply perm_swap|constructor; apply perm_swap]. }
  split; [intros t [<-|[<-|[<-|[<-|[]]]]]; reflexivity|]. split; [discriminate|reflexivity].
Qed.

(* ---------- C20: schedules ---------- *)

(** Whatever the completion order, an objective evaluation assembles the same product-level arrays and
    dictionaries as serial processing, the same aggregated micro contributions (with no assumption about
    addition, so in floating point too), and the same errors up to order, so the same distinct ones. *)
Theorem C20_objective_evaluation {X S M E} (market_rows : Z -> list nat) (f : Z -> @market_output X S M E)
    (initial : @assembled X S M E) (ids order : list Z) (add : M -> M -> M) (zero missing : M) (eqb : E -> E -> bool) :
  NoDup ids -> Permutation order ids ->
  (forall t t' i, In t ids -> In t' ids -> In i (market_rows t) -> In i (market_rows t') -> t = t') ->
  (forall a b, reflect (a = b) (eqb a b)) ->
  let serial := assemble market_rows initial (generate_items ids f) in
  let pooled := assemble market_rows initial (generate_items order f) in
  (forall i, rows pooled i = rows serial i) /\
  (forall t, stats pooled t = stats serial t) /\
  (forall t, micro pooled t = micro serial t) /\
  aggregate add zero missing pooled ids = aggregate add zero missing serial ids /\
  Permutation (errors pooled) (errors serial) /\
  Permutation (distinct eqb (errors pooled)) (distinct eqb (errors serial)).
Proof.
  intros ND P D R serial pooled.
  assert (H : same pooled serial).
  { apply assemble_permutation.
    - unfold generate_items. apply Permutation_map. exact P.
    - unfold generate_items. rewrite map_map. rewrite (map_ext _ (fun x => x)) by reflexivity. rewrite map_id.
      exact (Permutation_NoDup (Permutation_sym P) ND).
    - intros t o t' o' i H H'. unfold generate_items in H, H'. apply in_map_iff in H. apply in_map_iff in H'.
      destruct H as [k [Ek Hk]], H' as [k' [Ek' Hk']]. injection Ek as <- _. injection Ek' as <- _.
      apply (D k k' i); eapply Permutation_in; eassumption. }
  destruct H as [A [B [C F]]]. split; [exact A|]. split; [exact B|]. split; [exact C|].
  split; [exact (aggregate_same add zero missing _ _ ids (conj A (conj B (conj C F))))|].
  split; [exact F|exact (distinct_perm eqb R _ _ F)].
Qed.
Print Assumptions C20_objective_evaluation.

(** The same for stacked post-estimation outputs, which are equal element by element. *)
Theorem C20_stacked_outputs {V} N (market_rows : Z -> list nat) market_ids order (f : Z -> list (list V)) :
  NoDup market_ids -> Permutation order market_ids ->
  (forall t t' i, In t market_ids -> In t' market_ids -> In i (market_rows t) -> In i (market_rows t') -> t = t') ->
  (List.length market_ids > 1 -> total_rows market_ids f = List.length market_ids \/ total_rows market_ids f = N) ->
  forall i j, combine_arrays N market_rows market_ids order f i j
            = combine_arrays N market_rows market_ids market_ids f i j.
Proof. intros ND P. exact (combine_order N market_rows market_ids order market_ids f ND P (Permutation_refl _)). Qed.
Print Assumptions C20_stacked_outputs.

(** The indices that products have in their markets meet the hypothesis about rows. *)
Theorem C20_market_indices_disjoint ids p t t' i : is_stable_argsort ids p -> In t ids -> In t' ids ->
  In i (market_indices ids p t) -> In i (market_indices ids p t') -> t = t'.
Proof.
  intros H Ht Ht'. rewrite !market_indices_rows by assumption. rewrite !rows_of_in. intros [_ A] [_ B]. congruence.
Qed.
Print Assumptions C20_market_indices_disjoint.

Example C20_applies :
  let ids := [3; 1; 3]%Z in
  let f := fun t => {| out_rows := if Z.eqb t 3 then [30; 31]%Z else [10]%Z; out_stats := t; out_micro := t; out_errors := [t] |} in
  let a := assemble (market_indices ids (stable_argsort ids))
             {| rows := fun _ => 0%Z; stats := fun _ => None; micro := fun _ => None; errors := [] |}
             (generate_items [3; 1]%Z f) in
  map (rows a) [0; 1; 2] = [30; 10; 31]%Z /\ errors a = [3; 1]%Z.
Proof. split; reflexivity. Qed.

(* ---------- C21: importance sampling with a seed ---------- *)

Local Open Scope R_scope.
(** The generator's state is threaded through markets in order of arrival, so that different completion
    orders give different weights for the same seed. *)
Theorem C21_seed_refuted :
  exists (uniform : nat -> nat -> (nat -> R) * nat) (choice : nat -> list nat -> nat -> option (list nat) * nat),
    uniform_ok uniform /\ choice_ok choice /\
    exists d d' w w',
      importance_weights uniform choice 0%nat 1 1 (fun _ => 2%nat) (fun _ => 1 / 2) (fun _ _ => 1 / 2) [1; 2]%Z = Some d /\
      importance_weights uniform choice 0%nat 1 1 (fun _ => 2%nat) (fun _ => 1 / 2) (fun _ _ => 1 / 2) [2; 1]%Z = Some d' /\
      d 1%Z = Some w /\ d' 1%Z = Some w' /\ w 0%nat <> w' 0%nat.
Proof.
  exists (fun g n => ((fun i => if Nat.eqb i g then 0 else 3 / 4), S g)).
  exists (fun g l n => (if le_lt_dec n (List.length l) then Some (firstn n l) else None, g)).
  split; [intros g n i; cbn [fst]; destruct (Nat.eqb i g); lra|].
  split.
  { intros g l n ND. cbn [fst]. destruct (le_lt_dec n (List.length l)) as [H|H]; [|exact H].
    split; [|split].
    - exact (nodup_firstn n l ND).
    - apply firstn_length_le. exact H.
    - intros x Hx. rewrite <- (firstn_skipn n l). apply in_or_app. left. exact Hx. }
  assert (MW : forall g, (g < 2)%nat ->
    market_weights (fun g n => ((fun i => if Nat.eqb i g then 0 else 3 / 4), S g))
      (fun g l n => (if le_lt_dec n (List.length l) then Some (firstn n l) else None, g))
      g 1 1 2 (1 / 2) (fun _ => 1 / 2)
    = (Some (fun i => if existsb (Nat.eqb i) [g] then 1 / 2 / (1 / 2) / INR 1 else 0), S g)).
  { intros g Hg. unfold market_weights. cbv beta iota.
    assert (F : filter (fun i => if Rlt_dec (if Nat.eqb i g then 0 else 3 / 4) (1 / 2 / 1) then true else false) (seq 0 2) = [g]).
    { destruct (Rlt_dec 0 (1 / 2 / 1)) as [a|a] eqn:Ea; [|lra].
      destruct (Rlt_dec (3 / 4) (1 / 2 / 1)) as [b|b] eqn:Eb; [lra|].
      destruct g as [|[|g]]; [| |lia]; cbn [seq filter Nat.eqb]; rewrite ?Ea, ?Eb; reflexivity. }
    rewrite F. reflexivity. }
  cbn [importance_weights].
  rewrite (MW 0%nat) by lia. cbv iota. rewrite (MW 1%nat) by lia. cbv iota.
  do 4 eexists. split; [reflexivity|]. split; [reflexivity|]. cbv beta.
  split; [cbn [Z.eqb Pos.eqb]; reflexivity|]. split; [cbn [Z.eqb Pos.eqb]; reflexivity|].
  cbn [existsb Nat.eqb orb]. change (INR 1) with 1. lra.
Qed.
Print Assumptions C21_seed_refuted.

(* ---------- C51: importance sampling ---------- *)

(** In whatever order markets are processed, every market keeps exactly the requested number of distinct
    agents, with strictly positive weights equal to inside share / (inside probability * draws), and no
    other agent has weight. *)
Theorem C51_draws_and_weights {G} (uniform : G -> nat -> (nat -> R) * G)
    (choice : G -> list nat -> nat -> option (list nat) * G) draws ar count share prob :
  uniform_ok uniform -> choice_ok choice ->
  (0 < draws)%nat -> 1 <= ar -> (forall t, 0 < share t) -> (forall t i, (i < count t)%nat -> 0 <= prob t i) ->
  forall order g d, importance_weights uniform choice g draws ar count share prob order = Some d ->
  forall t, In t order -> exists w, d t = Some w /\
    exists sampled, NoDup sampled /\ List.length sampled = draws /\
      (forall i, In i sampled -> (i < count t)%nat /\ 0 < prob t i /\ w i = share t / (prob t i * INR draws) /\ 0 < w i) /\
      (forall i, ~ In i sampled -> w i = 0).
Proof. exact (importance_weights_spec uniform choice draws ar count share prob). Qed.
Print Assumptions C51_draws_and_weights.

(** A market for which the computation raises had too few accepted agents. *)
Theorem C51_raises {G} (uniform : G -> nat -> (nat -> R) * G)
    (choice : G -> list nat -> nat -> option (list nat) * G) g draws ar count share prob :
  uniform_ok uniform -> choice_ok choice ->
  (0 < draws)%nat -> 1 <= ar -> 0 < share -> (forall i, (i < count)%nat -> 0 <= prob i) ->
  fst (market_weights uniform choice g draws ar count share prob) = None ->
  (List.length (filter (fun i => if Rlt_dec (fst (uniform g count) i) (prob i / ar) then true else false)
                  (seq 0 count)) < draws)%nat.
Proof.
  intros HU HC Hd Har Hs Hp H.
  assert (M := market_weights_spec uniform choice g draws ar count share prob HU HC Hd Har Hs Hp).
  rewrite H in M. exact M.
Qed.
Print Assumptions C51_raises.

(** Each reported effective number of draws is between one and the number of draws. *)
Theorem C51_effective_draws w : w <> [] -> (forall x, In x w -> 0 < x) ->
  1 <= effective_draws w <= INR (List.length w) /\
  1 <= effective_draws_for_variance w <= INR (List.length w) /\
  1 <= effective_draws_for_skewness w <= INR (List.length w).
Proof. exact (effective_bounds w). Qed.
Print Assumptions C51_effective_draws.

Example C51_applies : [1 / 4; 1 / 2] <> [] /\ (forall x, In x [1 / 4; 1 / 2] -> 0 < x) /\
  effective_draws [1 / 4; 1 / 2] = 9 / 5.
Proof.
  split; [discriminate|]. split; [intros x [<-|[<-|[]]]; lra|].
  unfold effective_draws, weight_sum, power_sum. simpl. field.
Qed.
