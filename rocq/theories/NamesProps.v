(** Theorems about names of IDs: C147. *)
From Coq Require Import Reals Lra Lia ZArith List Bool Arith Permutation Sorted.
From Verif Require Import Base FltModel DemandSpec SupplyModel BasicsModel BasicsSpec BasicsProofs ConstrModel ConstrSpec SchedModel SchedSpec SchedProofs PostModel PostSpec
  ProbModel ProbSpec ProbProofs ProbProps ProbWitness NamesSpec NamesProofs.
Import ListNotations.
Local Open Scope nat_scope.

(** Other names of markets and firms leave ownership matrices as they are. *)
Theorem C147_ownership ids ids' fids fids' kappa kappa' n c : alike ids ids' -> alike fids fids' -> length fids = length ids -> n < length ids ->
  match kappa, kappa' with
  | Callable k, Callable k' => forall i j, i < length ids -> j < length ids -> k (nth i fids 0%Z) (nth j fids 0%Z) = k' (nth i fids' 0%Z) (nth j fids' 0%Z)
  | Default, Default | Monopoly, Monopoly | Single, Single => True
  | _, _ => False
  end -> build_ownership ids fids kappa n c = build_ownership ids' fids' kappa' n c.
Proof. intros A B L Hn K. exact (alike_ownership ids ids' fids fids' A B L kappa kappa' n c K Hn). Qed.
Print Assumptions C147_ownership.

(** And sums over products of the same firm and of rivals, which are BLP instruments. *)
Theorem C147_blp_instruments ids ids' fids fids' ms ps ms' ps' x n : alike ids ids' -> alike fids fids' -> length fids = length ids ->
  is_argsort ids ms -> is_argsort (interact_ids ids fids) ps -> is_argsort ids' ms' -> is_argsort (interact_ids ids' fids') ps' -> n < length ids ->
  blp_other ids fids ps x n = blp_other ids' fids' ps' x n /\ blp_rival ids fids ms ps x n = blp_rival ids' fids' ms' ps' x n.
Proof. intros A B L. exact (alike_blp ids ids' fids fids' A B L ms ps ms' ps' x n). Qed.
Print Assumptions C147_blp_instruments.

(** And differentiation instruments of both versions, with and without interactions. *)
Theorem C147_differentiation_instruments ids ids' fids fids' K X huge v interact n : alike ids ids' -> alike fids fids' -> length fids = length ids -> n < length ids ->
  build_differentiation_instruments ids fids K X huge v interact n = build_differentiation_instruments ids' fids' K X huge v interact n.
Proof. intros A B L. exact (alike_differentiation ids ids' fids fids' A B L K X huge v interact n). Qed.
Print Assumptions C147_differentiation_instruments.

(** Sums and means of groups, expanded to rows, and the number of groups are the same. *)
Theorem C147_groups ids ids' p p' : alike ids ids' -> is_argsort ids p -> is_argsort ids' p' ->
  group_count ids p = group_count ids' p' /\
  forall x j, j < length ids ->
    group_expand ids p (group_sum ids p x) j = group_expand ids' p' (group_sum ids' p' x) j /\
    group_expand ids p (group_mean ids p x) j = group_expand ids' p' (group_mean ids' p' x) j.
Proof.
  intros A P P'. split; [exact (alike_group_count ids ids' p p' A P P')|]. intros x j Hj.
  split; [exact (alike_group_sum ids ids' p p' A P P' x j Hj)|exact (alike_group_mean ids ids' p p' A P P' x j Hj)].
Qed.
Print Assumptions C147_groups.

(** Choice probabilities and shares after estimation do not depend on names of markets and nests if nesting
    parameters follow their nests and either markets are more than one product or names keep rows sorted. *)
Theorem C147_probabilities_partial e p e' p' u u' order order' (x d : option (nat -> R)) :
  renamed e p e' p' -> consistent e p -> consistent e' p' ->
  sorted_distinct (e_ids e) u -> sorted_distinct (e_ids e') u' -> Permutation order u -> Permutation order' u' ->
  (length (e_ids e) <> length u \/ StronglySorted Z.le (e_ids e)) ->
  (length (e_ids e') <> length u' \/ StronglySorted Z.le (e_ids e')) -> e_ids e <> [] ->
  let given := option_map (vector (length (e_ids e))) in
  (exists r r',
    compute_probabilities e p u order (given x) (given d) = Some r /\
    compute_probabilities e' p' u' order' (given x) (given d) = Some r' /\
    st_rows r = st_rows r' /\ st_columns r = st_columns r' /\
    forall i k, i < length (e_ids e) -> st_cell r i k = st_cell r' i k) /\
  (exists r r',
    compute_shares e p u order (given x) (given d) = Some r /\
    compute_shares e' p' u' order' (given x) (given d) = Some r' /\
    st_rows r = st_rows r' /\ st_columns r = st_columns r' /\
    forall i, i < length (e_ids e) -> st_cell r i 0 = st_cell r' i 0).
Proof.
  intros RE C C' U U' O O' G G' HN given.
  split; [exact (renamed_probabilities e p e' p' RE C C' u u' order order' x d U U' O O' G G' HN)|exact (renamed_shares e p e' p' RE C C' u u' order order' x d U U' O O' G G' HN)].
Qed.
Print Assumptions C147_probabilities_partial.

(** For the market of product i alone, no more is needed. *)
Theorem C147_one_market e p e' p' (x d : option (nat -> R)) i :
  renamed e p e' p' -> consistent e p -> consistent e' p' -> i < length (e_ids e) ->
  let t := nth i (e_ids e) 0%Z in let t' := nth i (e_ids e') 0%Z in
  let given := option_map (fun v : nat -> R => vector (size_of (e_ids e) t) (fun q => v (nth q (rows_of (e_ids e) t) 0))) in
  exists r r',
    compute_probabilities e p [t] [t] (given x) (given d) = Some r /\
    compute_probabilities e' p' [t'] [t'] (given x) (given d) = Some r' /\
    st_rows r = st_rows r' /\ st_columns r = st_columns r' /\
    forall q k, q < st_rows r -> k < st_columns r -> st_cell r q k = st_cell r' q k.
Proof. intros RE C C' Hi. exact (renamed_one_market e p e' p' RE C C' x d i Hi). Qed.
Print Assumptions C147_one_market.

(** The economy of C115 whose markets 5 and 2 are called 1 and 7, whose firms 1 and 2 are called 9 and 4 and
    whose nests trade places. *)
Definition other_names_economy : economy :=
  mk_economy [1; 7; 1]%Z (stable_argsort [1; 7; 1]%Z) 2 (fun i => 1 - Nat.modulo i 2) 2
    (fun h => if Nat.eqb h 0 then 1 / 2 else 1 / 4)%R 1
    1 (fun _ => mk_column true (fun _ x => x) (fun _ _ => 1%R) (fun _ _ => 0%R)) (fun _ => (-1)%R)
    1 (fun _ => mk_column false (fun _ _ => 1%R) (fun _ _ => 0%R) (fun _ _ => 0%R)) (fun _ _ => 1%R)
    (fun i => 1 + INR i)%R (fun i => - INR i)%R.
Definition other_names_population : population :=
  mk_population [1; 7; 1; 1]%Z (stable_argsort [1; 7; 1; 1]%Z) (fun n => if Nat.eqb n 1 then 1 else / 3)%R
    (fun n _ _ => INR n) (Some (fun n j => negb (Nat.eqb n 0 && Nat.eqb j 1))).

Lemma alike_example : alike [5; 2; 5]%Z [1; 7; 1]%Z.
Proof. split; [reflexivity|]. intros n m Hn Hm. cbn [length] in Hn, Hm. destruct n as [|[|[|n]]], m as [|[|[|m]]]; try lia; cbn; lia. Qed.

Example C147_applies :
  alike [5; 2; 5]%Z [1; 7; 1]%Z /\ alike [1; 1; 2]%Z [9; 9; 4]%Z /\
  renamed witness_economy witness_population other_names_economy other_names_population /\
  consistent witness_economy witness_population /\ consistent other_names_economy other_names_population /\
  sorted_distinct (e_ids witness_economy) [2; 5]%Z /\ sorted_distinct (e_ids other_names_economy) [1; 7]%Z /\
  length (e_ids witness_economy) <> length [2; 5]%Z /\ length (e_ids other_names_economy) <> length [1; 7]%Z.
Proof.
  split; [exact alike_example|]. split.
  { split; [reflexivity|]. intros n m Hn Hm. cbn [length] in Hn, Hm. destruct n as [|[|[|n]]], m as [|[|[|m]]]; try lia; cbn; lia. }
  split.
  { constructor; cbn [witness_economy witness_population other_names_economy other_names_population e_ids e_order e_H e_nest e_rho_size e_rho e_eps e_K1 e_X1 e_beta e_K2 e_X2 e_prices e_delta p_ids p_order p_weights p_coef p_availability ev]; try reflexivity.
    - exact alike_example.
    - split; [reflexivity|]. split; [reflexivity|]. intros n m Hn Hm. cbn [length] in Hn, Hm. destruct n as [|[|[|n]]], m as [|[|[|[|m]]]]; try lia; cbn; lia.
    - intros _ n m Hn Hm. cbn [length] in Hn, Hm. destruct n as [|[|[|n]]], m as [|[|[|m]]]; try lia; cbn; lia.
    - intros _ i Hi. cbn [length] in Hi. destruct i as [|[|[|i]]]; try lia; cbn; reflexivity. }
  split; [exact witness_consistent|]. split.
  { constructor; cbn [other_names_economy other_names_population e_ids e_order e_H e_nest e_rho_size e_rho e_eps e_X1 e_X2 e_x2 p_ids p_order uses ev].
    - exact (stable_argsort_correct _).
    - exact (stable_argsort_correct _).
    - intros t. cbn [In]. tauto.
    - intros _ i _. lia.
    - intros _. lia.
    - intros h _. unfold nest_rho. cbn [Nat.eqb]. destruct (Nat.eqb h 0); lra.
    - lra.
    - reflexivity.
    - discriminate.
    - reflexivity.
    - reflexivity. }
  split; [exact (group_unique_spec _ _ (stable_is_argsort _ _ (stable_argsort_correct [5; 2; 5]%Z)))|].
  split; [exact (group_unique_spec _ _ (stable_is_argsort _ _ (stable_argsort_correct [1; 7; 1]%Z)))|]. split; discriminate.
Qed.

(** One product in each market. *)
Definition alone (ids : list Z) : economy :=
  mk_economy ids (stable_argsort ids) 0 (fun _ => 0) 0 (fun _ => 0%R) 1
    0 (fun _ => mk_column false (fun _ _ => 0%R) (fun _ _ => 0%R) (fun _ _ => 0%R)) (fun _ => 0%R)
    0 (fun _ => mk_column false (fun _ _ => 0%R) (fun _ _ => 0%R) (fun _ _ => 0%R)) (fun _ _ => 0%R)
    (fun _ => 1%R) INR.
Definition each_alone (ids : list Z) : population := mk_population ids (stable_argsort ids) (fun _ => 1%R) (fun _ _ _ => 0%R) None.

Lemma alone_consistent ids : consistent (alone ids) (each_alone ids).
Proof.
  constructor; cbn [alone each_alone e_ids e_order e_H e_nest e_rho_size e_rho e_eps e_X1 e_X2 e_x2 p_ids p_order uses ev]; try reflexivity; try lra; try (intros; lia); try (intros; contradiction).
  - exact (stable_argsort_correct _).
  - exact (stable_argsort_correct _).
Qed.

(** When all markets have one product, names of markets decide in which rows results are. *)
Theorem C147_probabilities_refuted : exists e p e' p' u u' r r',
  renamed e p e' p' /\ consistent e p /\ consistent e' p' /\ sorted_distinct (e_ids e) u /\ sorted_distinct (e_ids e') u' /\
  compute_probabilities e p u u None None = Some r /\ compute_probabilities e' p' u' u' None None = Some r' /\
  exists i, i < length (e_ids e) /\ st_cell r i 0 <> st_cell r' i 0.
Proof.
  assert (U : sorted_distinct [1; 2]%Z [1; 2]%Z) by exact (group_unique_spec _ _ (stable_is_argsort _ _ (stable_argsort_correct [1; 2]%Z))).
  assert (U' : sorted_distinct [2; 1]%Z [1; 2]%Z) by exact (group_unique_spec _ _ (stable_is_argsort _ _ (stable_argsort_correct [2; 1]%Z))).
  assert (SS : StronglySorted Z.le [1; 2]%Z) by (repeat constructor; lia).
  destruct (C115_probabilities (alone [1; 2]%Z) (each_alone [1; 2]%Z) [1; 2]%Z [1; 2]%Z None None (alone_consistent _) U (Permutation_refl _) (or_intror SS)) as (r & E & _ & _ & X); [discriminate|].
  destruct (C115_one_market (alone [2; 1]%Z) (each_alone [2; 1]%Z) 1%Z None None (alone_consistent _)) as (r1 & E1 & _ & _ & X1); [right; left; reflexivity|].
  cbn [option_map] in E, E1.
  assert (E2 : exists r', compute_probabilities (alone [2; 1]%Z) (each_alone [2; 1]%Z) [1; 2]%Z [1; 2]%Z None None = Some r') by (eexists; reflexivity).
  destruct E2 as [r' E2].
  exists (alone [1; 2]%Z), (each_alone [1; 2]%Z), (alone [2; 1]%Z), (each_alone [2; 1]%Z), [1; 2]%Z, [1; 2]%Z, r, r'.
  assert (A : alike [1; 2]%Z [2; 1]%Z).
  { split; [reflexivity|]. intros n m Hn Hm. cbn [length] in Hn, Hm. destruct n as [|[|n]], m as [|[|m]]; try lia; cbn; lia. }
  split.
  { constructor; try reflexivity; try (intros; contradiction); try exact A. destruct A as [_ A]. split; [reflexivity|]. split; [reflexivity|]. exact A. }
  split; [apply alone_consistent|]. split; [apply alone_consistent|]. split; [exact U|]. split; [exact U'|]. split; [exact E|]. split; [exact E2|].
  exists 0. split; [cbn; lia|]. rewrite (X 0 0) by (cbn; lia).
  assert (K : st_cell r' 0 0 = st_cell r1 0 0).
  { unfold compute_probabilities, compute_with in E1, E2. cbn [coerce_optional optional_argument option_map] in E1, E2.
    injection E1 as <-. injection E2 as <-. cbn [combined st_cell]. reflexivity. }
  rewrite K, (X1 0 0) by (cbn; lia). cbn. unfold row_probability, choice_probability, row_utility, utility_at, unobserved, row_available, logit.
  cbn. intro F. injection F as F.
  replace ((0 - 0 + 0 + 0) / 1)%R with 0%R in F by field. replace ((1 - 0 + 0 + 0) / 1)%R with 1%R in F by field. rewrite exp_0 in F.
  assert (P := exp_ineq1 1 ltac:(lra)). apply (f_equal (fun y => (y * (2 * (1 + exp 1)))%R)) in F.
  replace (1 / (1 + (0 + 1 + 0)) * (2 * (1 + exp 1)))%R with (1 + exp 1)%R in F by field.
  replace (exp 1 / (1 + (0 + 0 + exp 1)) * (2 * (1 + exp 1)))%R with (2 * exp 1)%R in F by (field; lra). lra.
Qed.
Print Assumptions C147_probabilities_refuted.
