(** Theorems about matrices of choice probabilities: C115. *)
From Coq Require Import Reals Lra Lia ZArith List Bool Arith Permutation Sorted.
From Verif Require Import Base DemandModel DemandSpec SupplyModel.
From Verif Require Import BasicsModel BasicsSpec BasicsProofs SchedModel SchedSpec PostModel PostSpec.
From Verif Require Import ProbModel ProbSpec ProbProofs ProbWitness.
Import ListNotations.
Local Open Scope R_scope.

(** The element in row i and column k is the probability with which the k-th agent of product i's market
    (in the order of agent data) chooses product i when it competes with the products of its market that
    are available to the agent, at prices and mean utilities that are given or else follow from the
    estimates; columns beyond the number of agents in the market are NaN, and there are as many columns
    as there are agents in the market that has most of them.  Orders of arrival do not matter. *)
Theorem C115_probabilities e p u order (x d : option (nat -> R)) :
  consistent e p -> sorted_distinct (e_ids e) u -> Permutation order u ->
  (List.length (e_ids e) <> List.length u \/ StronglySorted Z.le (e_ids e)) -> e_ids e <> [] ->
  exists r,
    compute_probabilities e p u order (option_map (vector (List.length (e_ids e))) x)
      (option_map (vector (List.length (e_ids e))) d) = Some r /\
    st_rows r = List.length (e_ids e) /\ most (st_columns r) (map (size_of (p_ids p)) u) /\
    forall i k, (i < List.length (e_ids e))%nat ->
    st_cell r i k =
      if Nat.ltb k (size_of (p_ids p) (nth i (e_ids e) 0%Z))
      then Some (row_probability e p (match x with Some x => x | None => e_prices e end) d
                   (nth k (rows_of (p_ids p) (nth i (e_ids e) 0%Z)) 0%nat) i)
      else None.
Proof. exact (fun C => stacked_probabilities e p C u order x d). Qed.
Print Assumptions C115_probabilities.

(** The same for one selected market, whose products and agents are in the order of the data. *)
Theorem C115_one_market e p t (x d : option (nat -> R)) : consistent e p -> In t (e_ids e) ->
  let given := option_map (fun v : nat -> R =>
    vector (size_of (e_ids e) t) (fun q => v (nth q (rows_of (e_ids e) t) 0%nat))) in
  exists r,
    compute_probabilities e p [t] [t] (given x) (given d) = Some r /\
    st_rows r = size_of (e_ids e) t /\ st_columns r = size_of (p_ids p) t /\
    forall q k, (q < size_of (e_ids e) t)%nat -> (k < size_of (p_ids p) t)%nat ->
    st_cell r q k =
      Some (row_probability e p (match x with Some x => x | None => e_prices e end) d
              (nth k (rows_of (p_ids p) t) 0%nat) (nth q (rows_of (e_ids e) t) 0%nat)).
Proof. exact (fun C => one_probabilities e p C t x d). Qed.
Print Assumptions C115_one_market.

(** Shares computed with the same arguments are these probabilities, averaged over agents with their
    integration weights. *)
Theorem C115_shares e p u order (x d : option (nat -> R)) :
  consistent e p -> sorted_distinct (e_ids e) u -> Permutation order u ->
  (List.length (e_ids e) <> List.length u \/ StronglySorted Z.le (e_ids e)) -> e_ids e <> [] ->
  exists r,
    compute_shares e p u order (option_map (vector (List.length (e_ids e))) x)
      (option_map (vector (List.length (e_ids e))) d) = Some r /\
    st_rows r = List.length (e_ids e) /\ st_columns r = 1%nat /\
    forall i, (i < List.length (e_ids e))%nat ->
    st_cell r i 0 =
      Some (total_over (fun n => row_probability e p (match x with Some x => x | None => e_prices e end) d n i
                                 * p_weights p n) (rows_of (p_ids p) (nth i (e_ids e) 0%Z))).
Proof. exact (fun C => stacked_shares e p C u order x d). Qed.
Print Assumptions C115_shares.

(** Passing probabilities to [extract_diagonals], for which the documentation offers them, is accepted
    exactly if the largest number of agents in a market equals the largest number of products. *)
Theorem C115_diagonals_partial e p u order order' (x d : option (nat -> R)) :
  consistent e p -> sorted_distinct (e_ids e) u -> Permutation order u ->
  (List.length (e_ids e) <> List.length u \/ StronglySorted Z.le (e_ids e)) -> e_ids e <> [] ->
  exists r,
    compute_probabilities e p u order (option_map (vector (List.length (e_ids e))) x)
      (option_map (vector (List.length (e_ids e))) d) = Some r /\
    forall n, largest (e_ids e) u n ->
    (extract_diagonals (e_ids e) (e_order e) u order' r <> None <-> most n (map (size_of (p_ids p)) u)).
Proof. exact (fun C HU HO HG HN => probability_diagonals e p C u order x d HU HO HG HN order'). Qed.
Print Assumptions C115_diagonals_partial.

Example C115_applies :
  let e := witness_economy in let p := witness_population in
  consistent e p /\ sorted_distinct (e_ids e) [2; 5]%Z /\ Permutation [5; 2]%Z [2; 5]%Z /\
  List.length (e_ids e) <> List.length [2; 5]%Z /\ e_ids e <> [] /\ largest (e_ids e) [2; 5]%Z 2 /\
  most 3 (map (size_of (p_ids p)) [2; 5]%Z) /\
  (exists r, compute_probabilities e p [2; 5]%Z [5; 2]%Z None None = Some r /\
     st_cell r 1 0 <> None /\ st_cell r 1 1 = None /\ st_cell r 2 0 = Some 0).
Proof.
  cbv zeta.
  assert (U : sorted_distinct (e_ids witness_economy) [2; 5]%Z)
    by exact (group_unique_spec _ _ (stable_is_argsort _ _ (stable_argsort_correct [5; 2; 5]%Z))).
  split; [exact witness_consistent|]. split; [exact U|]. split; [apply perm_swap|].
  split; [discriminate|]. split; [discriminate|]. split.
  { split; [intros t [<-|[<-|[]]]; cbn; lia|]. exists 5%Z. split; [right; left; reflexivity|reflexivity]. }
  split.
  { split; [intros s [<-|[<-|[]]]; cbn; lia|]. right; left; reflexivity. }
  destruct (C115_probabilities witness_economy witness_population [2; 5]%Z [5; 2]%Z None None witness_consistent U
    (perm_swap 2%Z 5%Z [])) as (r & E & _ & _ & X); [left; discriminate|discriminate|].
  exists r. split; [exact E|]. split; [rewrite X by (cbn; lia); discriminate|].
  split; [rewrite X by (cbn; lia); reflexivity|]. rewrite X by (cbn; lia). cbn [Nat.ltb].
  change (Nat.ltb 0 (size_of (p_ids witness_population) (nth 2 (e_ids witness_economy) 0%Z))) with true.
  cbv iota. f_equal. unfold row_probability, choice_probability. cbn [witness_economy e_H Nat.eqb].
  unfold nested, within_group. change (row_available _ _ _ 2) with false. rewrite andb_false_r. ring.
Qed.

(** With as many agents as in this example, what the documentation offers raises an exception. *)
Theorem C115_diagonals_refuted : exists e p u r,
  consistent e p /\ sorted_distinct (e_ids e) u /\ List.length (e_ids e) <> List.length u /\
  compute_probabilities e p u u None None = Some r /\
  extract_diagonals (e_ids e) (e_order e) u u r = None.
Proof.
  assert (U : sorted_distinct (e_ids witness_economy) [2; 5]%Z)
    by exact (group_unique_spec _ _ (stable_is_argsort _ _ (stable_argsort_correct [5; 2; 5]%Z))).
  destruct (C115_diagonals_partial witness_economy witness_population [2; 5]%Z [2; 5]%Z [2; 5]%Z None None
    witness_consistent U (Permutation_refl _)) as (r & E & X); [left; discriminate|discriminate|].
  exists witness_economy, witness_population, [2; 5]%Z, r.
  split; [exact witness_consistent|]. split; [exact U|]. split; [discriminate|]. split; [exact E|].
  assert (L : largest (e_ids witness_economy) [2; 5]%Z 2).
  { split; [intros t [<-|[<-|[]]]; cbn; lia|]. exists 5%Z. split; [right; left; reflexivity|reflexivity]. }
  destruct (extract_diagonals (e_ids witness_economy) (e_order witness_economy) [2; 5]%Z [2; 5]%Z r); [exfalso|reflexivity].
  assert (M : most 2 (map (size_of (p_ids witness_population)) [2; 5]%Z)) by (apply (X 2%nat L); discriminate).
  destruct M as [M _]. specialize (M 3%nat (or_intror (or_introl eq_refl))). lia.
Qed.
Print Assumptions C115_diagonals_refuted.
