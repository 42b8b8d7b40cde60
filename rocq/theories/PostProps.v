(** Theorems about arguments and results of post-estimation methods: C90 and C91. *)
From Coq Require Import Reals Lra Lia ZArith List Bool Arith Permutation Sorted.
From Verif Require Import Base FltModel BasicsModel BasicsSpec BasicsProofs SchedModel SchedSpec SchedProofs.
From Verif Require ConstrModel.
From Verif Require Import PostModel PostSpec PostProofs.
Import ListNotations.
Local Open Scope nat_scope.

(* ---------- C90 ---------- *)

(** Matrices are accepted exactly if they have one row for each product of the selected markets and as
    many columns as the largest of these has products; likewise for ownership matrices and vectors. *)
Theorem C90_accepted_shapes {V} (ids : list Z) p sel (m m' : @stacked V) :
  is_stable_argsort ids p -> sel <> [] -> NoDup sel -> (forall t, In t sel -> In t ids) ->
  (coerce_matrices (get_indices ids p) sel m = Some m' <->
   m' = m /\ st_rows m = products_in ids sel /\ largest ids sel (st_columns m)) /\
  (coerce_ownership (market_indices ids p) sel m = Some m' <->
   m' = m /\ st_rows m = products_in ids sel /\ largest ids sel (st_columns m)) /\
  (coerce_column (get_indices ids p) sel m = Some m' <->
   m' = m /\ st_rows m = products_in ids sel /\ st_columns m = 1).
Proof.
  intros HP N ND I. split; [exact (coerce_matrices_shape ids p sel m m' HP N I)|].
  split; [exact (coerce_ownership_shape ids p sel m m' HP N ND I)|exact (coerce_column_shape ids p sel m m' HP)].
Qed.
Print Assumptions C90_accepted_shapes.

(** Which markets are selected. *)
Theorem C90_selected_markets u market_id sel :
  select_market_ids u market_id = Some sel <->
  (market_id = None /\ sel = u) \/ (exists t, market_id = Some t /\ In t u /\ sel = [t]).
Proof.
  unfold select_market_ids. destruct market_id as [t|].
  - destruct (existsb (Z.eqb t) u) eqn:E.
    + apply existsb_exists in E. destruct E as [s [I E]]. apply Z.eqb_eq in E. subst s. split.
      * intros F. injection F as <-. right. exists t. auto.
      * intros [[F _]|[s [F [_ ->]]]]; [discriminate|]. injection F as <-. reflexivity.
    + split; [discriminate|]. intros [[F _]|[s [F [I _]]]]; [discriminate|]. injection F as <-.
      apply Bool.not_true_iff_false in E. exfalso. apply E. apply existsb_exists. exists t.
      split; [assumption|apply Z.eqb_refl].
  - split; [intros F; injection F as <-; left; auto|]. intros [[_ ->]|[s [F _]]]; [reflexivity|discriminate].
Qed.
Print Assumptions C90_selected_markets.

(** What a method returned for all products, passed to another method, arrives in each market as what the
    first method computed there, whatever the orders of arrival. *)
Theorem C90_round_trip {V} (ids : list Z) p u order (f : Z -> list (list V)) :
  is_stable_argsort ids p -> sorted_distinct ids u -> Permutation order u ->
  (forall t, In t ids -> List.length (f t) = size_of ids t) ->
  (List.length ids <> List.length u \/ StronglySorted Z.le ids) ->
  forall t q j, In t ids -> q < size_of ids t ->
  st_cell (market_argument (market_indices ids p) u
    (combined (List.length ids) (market_indices ids p) u order f) t) q j = element (f t) q j.
Proof. exact (round_trip ids p u order f). Qed.
Print Assumptions C90_round_trip.

(** The same for a selected market. *)
Theorem C90_single_round_trip {V} (ids : list Z) p t (f : Z -> list (list V)) q j :
  is_stable_argsort ids p -> In t ids -> List.length (f t) = size_of ids t -> q < size_of ids t ->
  st_cell (market_argument (market_indices ids p) [t]
    (combined (List.length ids) (market_indices ids p) [t] [t] f) t) q j = element (f t) q j.
Proof. exact (single_round_trip ids p t f q j). Qed.
Print Assumptions C90_single_round_trip.

(** Diagonals that are extracted from stacked square matrices: row i is the element of product i's
    matrix that belongs to product i twice. *)
Theorem C90_diagonals {V} (ids : list Z) p u order (f : Z -> list (list V)) :
  is_stable_argsort ids p -> sorted_distinct ids u -> Permutation order u ->
  (forall t, In t ids -> rectangular (f t) (size_of ids t) (size_of ids t)) ->
  (List.length ids <> List.length u \/ StronglySorted Z.le ids) -> ids <> [] ->
  forall order', Permutation order' u ->
  exists r,
    extract_diagonals ids p u order' (combined (List.length ids) (market_indices ids p) u order f) = Some r /\
    st_rows r = List.length ids /\ st_columns r = 1 /\
    forall i, i < List.length ids ->
    st_cell r i 0 = Some (element (f (nth i ids 0%Z)) (rank ids i) (rank ids i)).
Proof. exact (diagonals ids p u order f). Qed.
Print Assumptions C90_diagonals.

Theorem C90_single_diagonal {V} (ids : list Z) p t (f : Z -> list (list V)) :
  is_stable_argsort ids p -> In t ids -> rectangular (f t) (size_of ids t) (size_of ids t) ->
  exists r,
    extract_diagonals ids p [t] [t] (combined (List.length ids) (market_indices ids p) [t] [t] f) = Some r /\
    st_rows r = size_of ids t /\
    forall q, q < size_of ids t -> st_cell r q 0 = Some (element (f t) q q).
Proof. exact (single_diagonal ids p t f). Qed.
Print Assumptions C90_single_diagonal.

(** Means of diagonals: row q is the mean for the q-th sorted market. *)
Theorem C90_diagonal_means (ids : list Z) p u order order' (f : Z -> list (list R)) (x : Z -> nat -> R) :
  is_stable_argsort ids p -> sorted_distinct ids u -> Permutation order u -> Permutation order' u ->
  (forall t, In t ids -> rectangular (f t) (size_of ids t) (size_of ids t)) ->
  (forall t q, In t ids -> q < size_of ids t -> element (f t) q q = Some (x t q)) ->
  (List.length ids <> List.length u \/ StronglySorted Z.le ids) -> ids <> [] ->
  exists r,
    extract_diagonal_means ids p u order' (combined (List.length ids) (market_indices ids p) u order f) = Some r /\
    st_rows r = List.length u /\
    forall q, q < List.length u ->
    st_cell r q 0 = Some (Some (sumn (size_of ids (nth q u 0%Z)) (x (nth q u 0%Z))
                                / INR (size_of ids (nth q u 0%Z)))%R).
Proof. exact (diagonal_means ids p u order order' f x). Qed.
Print Assumptions C90_diagonal_means.

(** Ownership matrices from [build_ownership] are accepted and mean the same in each market as firm IDs. *)
Theorem C90_built_ownership ids p u fids : is_stable_argsort ids p -> sorted_distinct ids u -> ids <> [] ->
  let m := {| st_rows := List.length ids; st_columns := ConstrModel.max_J ids;
              st_cell := fun i j => Some (ConstrModel.build_ownership ids fids ConstrModel.Default i j) |} in
  coerce_ownership (market_indices ids p) u m = Some m /\
  forall t, In t ids ->
  let own := given_ownership (size_of ids t) (market_argument (market_indices ids p) u m t) in
  st_rows own = size_of ids t /\ st_columns own = size_of ids t /\
  forall i j, i < size_of ids t -> j < size_of ids t ->
  st_cell own i j = Some (Num (firm_ownership (map (fun n => nth n fids 0%Z) (rows_of ids t)) i j)).
Proof. exact (built_ownership ids p u fids). Qed.
Print Assumptions C90_built_ownership.

(** When every market has one product and products are not sorted by market, what a method returned
    reaches the wrong markets. *)
Theorem C90_round_trip_refuted :
  exists (ids : list Z) p u (f : Z -> list (list Z)),
    is_stable_argsort ids p /\ sorted_distinct ids u /\
    (forall t, In t ids -> List.length (f t) = size_of ids t) /\
    exists t, In t ids /\
      st_cell (market_argument (market_indices ids p) u
        (combined (List.length ids) (market_indices ids p) u u f) t) 0 0 <> element (f t) 0 0.
Proof.
  exists [2; 1]%Z, [1; 0], [1; 2]%Z, (fun t => [[t]]).
  split; [exact (stable_argsort_correct [2; 1]%Z)|].
  split; [exact (group_unique_spec [2; 1]%Z [1; 0] (stable_is_argsort _ _ (stable_argsort_correct [2; 1]%Z)))|].
  split; [intros t [<-|[<-|[]]]; reflexivity|].
  exists 1%Z. split; [right; left; reflexivity|]. discriminate.
Qed.
Print Assumptions C90_round_trip_refuted.

Example C90_applies :
  let ids := [5; 2; 5; 1]%Z in let p := stable_argsort ids in let u := [1; 2; 5]%Z in
  let f := fun t : Z => if Z.eqb t 5 then [[50; 51]; [52; 53]]%Z else [[t]] in
  is_stable_argsort ids p /\ sorted_distinct ids u /\
  (forall t, In t ids -> rectangular (f t) (size_of ids t) (size_of ids t)) /\
  List.length ids <> List.length u /\ ids <> [] /\
  largest ids [2; 5]%Z 2 /\ products_in ids [2; 5]%Z = 3 /\
  exists r, extract_diagonals ids p u u (combined (List.length ids) (market_indices ids p) u [5; 1; 2]%Z f) = Some r /\
    st_cell r 2 0 = Some (Some 53%Z).
Proof.
  cbv zeta. split; [exact (stable_argsort_correct _)|].
  split; [exact (group_unique_spec _ _ (stable_is_argsort _ _ (stable_argsort_correct [5; 2; 5; 1]%Z)))|].
  split; [intros t [<-|[<-|[<-|[<-|[]]]]]; (split; [reflexivity|repeat constructor])|].
  split; [discriminate|]. split; [discriminate|]. split.
  { split; [intros t [<-|[<-|[]]]; cbn; lia|]. exists 5%Z. split; [right; left; reflexivity|reflexivity]. }
  split; [reflexivity|]. eexists. split; reflexivity.
Qed.

(* ---------- C91 ---------- *)

(** Bootstrapped results: entry (d, i) is about product i in draw d, in whatever order draws and markets
    arrive. *)
Theorem C91_product_rows {V} (ids : list Z) p u draws order (f : nat -> Z -> list (list V)) :
  is_stable_argsort ids p -> sorted_distinct ids u -> Permutation order (list_prod (seq 0 draws) u) ->
  (forall d t, In t ids -> List.length (f d t) = size_of ids t) ->
  (List.length ids <> List.length u \/ StronglySorted Z.le ids) ->
  forall d i j, d < draws -> i < List.length ids ->
  bootstrap_combine (List.length ids) (market_indices ids p) u order f d i j
  = element (f d (nth i ids 0%Z)) (rank ids i) j.
Proof. exact (bootstrap_products ids p u draws order f). Qed.
Print Assumptions C91_product_rows.

Theorem C91_market_rows {V} (ids : list Z) p u draws order (f : nat -> Z -> list (list V)) :
  sorted_distinct ids u -> Permutation order (list_prod (seq 0 draws) u) ->
  (forall d t, In t ids -> List.length (f d t) = 1) ->
  forall d q j, d < draws -> q < List.length u ->
  bootstrap_combine (List.length ids) (market_indices ids p) u order f d q j = element (f d (nth q u 0%Z)) 0 j.
Proof. exact (bootstrap_markets ids p u draws order f). Qed.
Print Assumptions C91_market_rows.

Theorem C91_single_market {V} (ids : list Z) p t draws order (f : nat -> Z -> list (list V)) :
  is_stable_argsort ids p -> In t ids -> Permutation order (list_prod (seq 0 draws) [t]) ->
  (forall d, List.length (f d t) = List.length (f 0 t)) ->
  (List.length (f 0 t) = 1 \/ List.length (f 0 t) = size_of ids t) ->
  forall d i j, d < draws -> i < List.length (f d t) ->
  bootstrap_combine (List.length ids) (market_indices ids p) [t] order f d i j = element (f d t) i j.
Proof. exact (bootstrap_single ids p t draws order f). Qed.
Print Assumptions C91_single_market.

(** Arguments with one slice for each draw reach the market of their draw. *)
Theorem C91_round_trip {V} (ids : list Z) p u draws order (f : nat -> Z -> list (list V)) :
  is_stable_argsort ids p -> sorted_distinct ids u -> Permutation order (list_prod (seq 0 draws) u) ->
  (forall d t, In t ids -> List.length (f d t) = size_of ids t) ->
  (List.length ids <> List.length u \/ StronglySorted Z.le ids) ->
  forall w d t q j, d < draws -> In t ids -> q < size_of ids t ->
  st_cell (bootstrap_argument (market_indices ids p) u
    (fun d => {| st_rows := List.length ids; st_columns := w;
                 st_cell := bootstrap_combine (List.length ids) (market_indices ids p) u order f d |}) d t) q j
  = element (f d t) q j.
Proof.
  intros HP HU HO HF HG w d t q j Hd Ht Hq. unfold bootstrap_argument.
  rewrite (argument_row ids p u HP HU _ t q j Ht Hq). cbn [st_cell].
  destruct (rows_row ids t q Hq) as (A & B & C).
  rewrite (bootstrap_products ids p u draws order f HP HU HO HF HG d _ j Hd A), B, C. reflexivity.
Qed.
Print Assumptions C91_round_trip.

(** As with other results, this fails when every market has one product and rows are not sorted. *)
Theorem C91_product_rows_refuted :
  exists (ids : list Z) p u (f : nat -> Z -> list (list Z)),
    is_stable_argsort ids p /\ sorted_distinct ids u /\
    (forall d t, In t ids -> List.length (f d t) = size_of ids t) /\
    exists i, i < List.length ids /\
      bootstrap_combine (List.length ids) (market_indices ids p) u (list_prod (seq 0 1) u) f 0 i 0
      <> element (f 0 (nth i ids 0%Z)) (rank ids i) 0.
Proof.
  exists [2; 1]%Z, [1; 0], [1; 2]%Z, (fun _ t => [[t]]).
  split; [exact (stable_argsort_correct [2; 1]%Z)|].
  split; [exact (group_unique_spec [2; 1]%Z [1; 0] (stable_is_argsort _ _ (stable_argsort_correct [2; 1]%Z)))|].
  split; [intros d t [<-|[<-|[]]]; reflexivity|].
  exists 0. split; [simpl; lia|]. discriminate.
Qed.
Print Assumptions C91_product_rows_refuted.

Example C91_applies :
  let ids := [5; 2; 5]%Z in let p := stable_argsort ids in let u := [2; 5]%Z in
  let f := fun (d : nat) (t : Z) =>
    if Z.eqb t 5 then [[Z.of_nat d; 51]; [52; Z.of_nat d]]%Z else [[(10 * Z.of_nat d)%Z]] in
  is_stable_argsort ids p /\ sorted_distinct ids u /\
  Permutation [(0, 2%Z); (0, 5%Z); (1, 2%Z); (1, 5%Z)] (list_prod (seq 0 2) u) /\
  (forall d t, In t ids -> List.length (f d t) = size_of ids t) /\ List.length ids <> List.length u /\
  bootstrap_combine 3 (market_indices ids p) u [(0, 2%Z); (0, 5%Z); (1, 2%Z); (1, 5%Z)] f 1 2 1 = Some 1%Z.
Proof.
  cbv zeta. split; [exact (stable_argsort_correct _)|].
  split; [exact (group_unique_spec _ _ (stable_is_argsort _ _ (stable_argsort_correct [5; 2; 5]%Z)))|].
  split; [apply Permutation_refl|].
  split; [intros d t [<-|[<-|[<-|[]]]]; reflexivity|]. split; [discriminate|reflexivity].
Qed.
