(** Properties of structured data. *)
From Coq Require Import Reals ZArith List Bool Arith Lia Lra.
From Verif Require Import FltModel ParamsProofs BasicsModel BasicsSpec BasicsProofs PrimModel PrimSpec PrimProofs.
Import ListNotations.
Local Open Scope nat_scope.

(** ** C43: lag indices are validated *)

(** The claim fails: an index beyond the last row, a missing value, and a fraction are all accepted,
    because the test is [not (all >= 0) and (all <= N - 1)]. *)
Theorem C43_refuted : exists beyond missing fraction,
  (~ valid_lags beyond /\ load_lags beyond = Some [0; 7]%Z /\ lagged_row 2 7 = None) /\
  (~ valid_lags missing /\ load_lags missing = Some [0; - 2 ^ 63]%Z /\ lagged_row 2 (- 2 ^ 63) = None) /\
  (~ valid_lags fraction /\ load_lags fraction = Some [0; 0; 0]%Z).
Proof.
  exists [Num 0; Num 7], [Num 0; NaN], [Num 0; Num (1 / 2); Num (1 / 4)].
  assert (N : forall l x, In x l -> (forall j, x <> Num (INR j)) -> ~ valid_lags l).
  { intros l x I H [V _]. destruct (V x I) as (j & _ & E). exact (H j E). }
  assert (I0 : to_int64 (Num 0) = 0%Z) by (change (Num 0) with (Num (INR 0)); apply int_part_nat).
  assert (HF : forall r, (0 < r < 1)%R -> forall j, Num r <> Num (INR j)).
  { intros r Hr j E. assert (Q : r = INR j) by congruence. destruct j as [|j]; [cbn in Q; lra|].
    rewrite S_INR in Q. assert (P := pos_INR j). lra. }
  assert (IF : forall r, (0 < r < 1)%R -> to_int64 (Num r) = 0%Z).
  { intros r Hr. cbn. destruct (Rle_dec 0 r); [|lra]. unfold Int_part. rewrite <- (tech_up r 1); [reflexivity|lra|lra]. }
  split; [|split].
  - split.
    + intros [V _]. destruct (V (Num 7)) as (j & L & E); [right; left; reflexivity|]. injection E as E. cbn in L.
      assert (INR j <= 1)%R by (change 1%R with (INR 1); apply le_INR; lia). lra.
    + split; [|reflexivity].
      assert (I7 : to_int64 (Num 7) = 7%Z).
      { replace 7%R with (INR 7) by (cbn; lra). apply int_part_nat. }
      unfold load_lags. cbn -[to_int64 Nat.eqb nodup]. rewrite I0, I7.
      assert (E1 : fleb (Num 0) (Num 0) = true) by (apply fleb_nums; lra).
      assert (E2 : fleb (Num 0) (Num 7) = true) by (apply fleb_nums; lra).
      assert (E3 : feqb (Num 0) (Num 0) = true) by (apply feqb_num; reflexivity).
      assert (E4 : feqb (Num 7) (Num 1) = false).
      { destruct (feqb (Num 7) (Num 1)) eqn:Q; [|reflexivity]. apply feqb_num in Q. injection Q as Q. lra. }
      cbn in E3, E4. rewrite E1, E2, E3, E4. reflexivity.
  - split.
    + apply (N _ NaN); [right; left; reflexivity|]. discriminate.
    + split; [|reflexivity].
      unfold load_lags. cbn -[to_int64 Nat.eqb nodup]. rewrite I0.
      assert (E1 : fleb (Num 0) (Num 0) = true) by (apply fleb_nums; lra).
      assert (E3 : feqb (Num 0) (Num 0) = true) by (apply feqb_num; reflexivity).
      cbn in E3. rewrite E1, E3. cbn -[to_int64 nodup fleb]. rewrite andb_false_r. reflexivity.
  - split.
    + apply (N _ (Num (1 / 2))); [right; left; reflexivity|]. apply HF. lra.
    + unfold load_lags. cbn -[to_int64 nodup Nat.eqb fleb feqb].
      rewrite I0, (IF (1 / 2)%R), (IF (1 / 4)%R) by lra.
      assert (E1 : fleb (Num 0) (Num 0) = true) by (apply fleb_nums; lra).
      assert (E2 : fleb (Num 0) (Num (1 / 2)) = true) by (apply fleb_nums; lra).
      assert (E3 : fleb (Num 0) (Num (1 / 4)) = true) by (apply fleb_nums; lra).
      assert (E4 : feqb (Num 0) (Num 0) = true) by (apply feqb_num; reflexivity).
      assert (E5 : feqb (Num (1 / 2)) (Num 1) = false).
      { destruct (feqb (Num (1 / 2)) (Num 1)) eqn:Q; [|reflexivity]. apply feqb_num in Q. injection Q as Q. lra. }
      assert (E6 : feqb (Num (1 / 4)) (Num (1 + 1)) = false).
      { destruct (feqb (Num (1 / 4)) (Num (1 + 1))) eqn:Q; [|reflexivity]. apply feqb_num in Q. injection Q as Q. lra. }
      rewrite E1, E2, E3, E4, E5, E6. cbn -[nodup].
      assert (E7 : nodup flt_eq_dec [Num (1 / 2); Num (1 / 4)] = [Num (1 / 2); Num (1 / 4)]).
      { apply nodup_fixed_point. constructor; [intros [Q|[]]; injection Q as Q; lra|]. constructor; [intros []|constructor]. }
      rewrite E7. reflexivity.
Qed.
Print Assumptions C43_refuted.
(** Rows that accepted indices select: row r by r and by r - N, and there is an error for all other indices. *)
Theorem C43_rows N lag r : lagged_row N lag = Some r <-> r < N /\ (lag = Z.of_nat r \/ lag = Z.of_nat r - Z.of_nat N)%Z.
Proof.
  unfold lagged_row.
  destruct (Z.leb_spec 0 lag), (Z.ltb_spec lag (Z.of_nat N)), (Z.leb_spec (- Z.of_nat N) lag), (Z.ltb_spec lag 0); cbn [andb]; try lia;
    (split; [intros E; try discriminate E; injection E as E; lia|intros [? ?]; try (f_equal; lia); exfalso; lia]).
Qed.
Print Assumptions C43_rows.

(** Whole numbers that do not exceed the last row number, when accepted, are row numbers, at least one
    row is an initial period, and no row is the lag of two others. *)
Theorem C43_whole_partial lags out :
  (forall x, In x lags -> exists z, x = Num (IZR z) /\ (z <= Z.of_nat (List.length lags) - 1)%Z) ->
  load_lags lags = Some out -> valid_lags lags.
Proof. exact (lags_whole lags out). Qed.
Print Assumptions C43_whole_partial.

(** Valid lag indices are accepted and stored unchanged. *)
Theorem C43_accepted lags : valid_lags lags ->
  exists rows, load_lags lags = Some (map Z.of_nat rows) /\ lags = map (fun j => Num (INR j)) rows.
Proof. exact (lags_valid lags). Qed.
Print Assumptions C43_accepted.

(** Two products, the second of which is the first in a later period. *)
Example C43_applies : valid_lags [Num 0; Num 0] /\
  forall x, In x [Num 0; Num 0] -> exists z, x = Num (IZR z) /\ (z <= Z.of_nat 2 - 1)%Z.
Proof.
  split.
  - split; [|split].
    + intros x [<-|[<-|[]]]; exists 0; cbn; split; auto.
    + exists 0. cbn. split; [lia|reflexivity].
    + intros i j (A & B & N & C & D & E). cbn in A, B.
      assert (i = 0 \/ i = 1) as [->| ->] by lia; [apply C; reflexivity|].
      assert (j = 0) by lia. subst j. apply D. reflexivity.
  - intros x [<-|[<-|[]]]; exists 0%Z; (split; [reflexivity|lia]).
Qed.

(** ** C75: shares of accepted data *)

(** Product data are accepted exactly when every share is strictly between zero and one and every
    market leaves a positive share to the outside good; accepted shares are stored unchanged. *)
Theorem C75_shares ids p shares : is_argsort ids p -> List.length shares = List.length ids ->
  (load_shares ids p shares <> None <-> proper_shares ids shares) /\
  forall s, load_shares ids p shares = Some s -> shares = map Num s.
Proof. exact (shares_spec ids p shares). Qed.
Print Assumptions C75_shares.

(** Two markets whose rows are interleaved; one of them is full, so the data are rejected. *)
Example C75_applies : let ids := [5; 3; 5]%Z in let p := stable_argsort ids in
  is_argsort ids p /\ load_shares ids p [Num (1 / 2); Num (1 / 2); Num (1 / 2)] = None /\
  load_shares ids p [Num (1 / 2); Num (1 / 2); Num (1 / 4)] <> None.
Proof.
  cbv zeta. assert (S : is_argsort [5; 3; 5]%Z (stable_argsort [5; 3; 5]%Z)) by (apply stable_is_argsort, stable_argsort_correct).
  split; [exact S|].
  assert (A := C75_shares _ _ [Num (1 / 2); Num (1 / 2); Num (1 / 2)] S eq_refl).
  assert (B := C75_shares _ _ [Num (1 / 2); Num (1 / 2); Num (1 / 4)] S eq_refl).
  split.
  - destruct (load_shares _ _ _) as [s|] eqn:E; [|reflexivity]. exfalso.
    assert (P : proper_shares [5; 3; 5]%Z [Num (1 / 2); Num (1 / 2); Num (1 / 2)]) by (apply A; discriminate).
    destruct P as [_ P]. specialize (P 5%Z (or_introl eq_refl)). cbn in P. lra.
  - apply B. split.
    + intros x [<-|[<-|[<-|[]]]]; eexists; (split; [reflexivity|lra]).
    + intros t [<-|[<-|[<-|[]]]]; cbn; lra.
Qed.

(** ** C44: agent data stay aligned *)

(** The claim fails for agent IDs and availability.  Data that are not sorted by market: demographics
    are rearranged but IDs are not, so a row has the demographics of one row and the ID of another.
    Sorted data without demographics but with other numbers of rows: an ID moves to another market. *)
Theorem C44_refuted :
  (exists (data : agent_data nat nat unit nat) block out,
     rectangular data /\ agents_integrated [0; 1]%Z data block = Some out /\
     same_sizes (loaded_markets data) block /\ ~ aligned data out) /\
  (exists (data : agent_data nat nat unit nat) block out,
     rectangular data /\ agents_integrated [0; 1]%Z data block = Some out /\
     grouped_by_market (loaded_markets data) /\ ~ aligned data out).
Proof.
  split.
  - exists (AgentData [1; 0]%Z (Some [11; 10]) (Some [21; 20]) None None), (fun _ => [0]),
      (Agents [0; 1]%Z [0; 0] (Some [11; 10]) (Some [20; 21]) None).
    split; [repeat split; cbn; intros l E; try discriminate; injection E as <-; reflexivity|].
    split; [reflexivity|]. split; [intros t [<-|[<-|[]]]; reflexivity|].
    intros [[_ H] _]. specialize (H 0%Z 0 0). cbn in H. destruct H as [_ H]; [lia|]. discriminate.
  - exists (AgentData [0; 0; 0; 1]%Z (Some [10; 11; 12; 13]) None None None), (fun _ => [0; 0]),
      (Agents [0; 0; 1; 1]%Z [0; 0; 0; 0] (Some [10; 11; 12; 13]) None None).
    split; [repeat split; cbn; intros l E; try discriminate; injection E as <-; reflexivity|].
    split; [reflexivity|].
    split.
    { intros i j H. cbn in H. destruct i as [|[|[|[|i]]]], j as [|[|[|[|j]]]]; cbn; lia. }
    intros [[_ H] _]. specialize (H 1%Z 1 0). cbn in H. destruct H as [H _]; lia.
Qed.
Print Assumptions C44_refuted.

(** Demographics alone are always aligned: row [r] of a market gets the demographics of row [r] of that
    market in the data, whatever the order of the data; and nodes are those built for the market. *)
Theorem C44_demographics_partial {I D A N : Type} product_markets (data : agent_data I D A N) block out :
  rectangular data -> (forall t, In t product_markets -> block t <> []) ->
  agents_integrated product_markets data block = Some out ->
  field_aligned (loaded_markets data) (agent_markets out) (loaded_demographics data) (agent_demographics out) /\
  nodes_in_order out block.
Proof.
  intros R NE H. split; [exact (demographics_ok product_markets data block out R NE H)|
                         exact (nodes_ok product_markets data block out NE H)].
Qed.
Print Assumptions C44_demographics_partial.

(** Every loaded field is aligned if the data are sorted by market and, without demographics (which
    force it), each market has as many rows as nodes. *)
Theorem C44_sorted_partial {I D A N : Type} product_markets (data : agent_data I D A N) block out :
  rectangular data -> (forall t, In t product_markets -> block t <> []) ->
  grouped_by_market (loaded_markets data) ->
  (loaded_demographics data <> None \/ same_sizes (loaded_markets data) block) ->
  agents_integrated product_markets data block = Some out -> aligned data out.
Proof. intros R NE G C H. exact (integrated_aligned product_markets data block out R NE H G C). Qed.
Print Assumptions C44_sorted_partial.

(** Without an integration configuration nothing moves. *)
Theorem C44_loaded {I D A N : Type} product_markets (data : agent_data I D A N) out : rectangular data ->
  agents_loaded product_markets data = Some out ->
  aligned data out /\ agent_markets out = loaded_markets data /\ loaded_nodes data = Some (agent_nodes out).
Proof. exact (loaded_aligned product_markets data out). Qed.
Print Assumptions C44_loaded.

(** Sorted data with a row too many in one market: without agent IDs the extra row is dropped, with
    them the data are rejected; with the right numbers of rows everything is kept. *)
Example C44_applies :
  let extra := AgentData [3; 3; 8]%Z None (Some [20; 21; 22]) None None : agent_data nat nat nat nat in
  let with_ids := AgentData [3; 3; 8]%Z (Some [10; 11; 12]) (Some [20; 21; 22]) None None : agent_data nat nat nat nat in
  rectangular extra /\
  agents_integrated [8; 3]%Z extra (fun _ => [1]) = Some (Agents [3; 8]%Z [1; 1] None (Some [20; 22]) None) /\
  agents_integrated [8; 3]%Z with_ids (fun _ => [1]) = None /\
  agents_integrated [8; 3]%Z with_ids (fun t => if Z.eqb t 3 then [1; 2] else [5])
    = Some (Agents [3; 3; 8]%Z [1; 2; 5] (Some [10; 11; 12]) (Some [20; 21; 22]) None).
Proof.
  cbv zeta. split; [repeat split; cbn; intros l E; try discriminate; injection E as <-; reflexivity|].
  repeat split.
Qed.

(** ** C76: micro data are duplicated in step with their nodes *)

(** Every row built for an observation has the observation's own value of each field. *)
Theorem C76_duplicates {N X : Type} (block : nat -> list N) (field : list X) :
  0 < List.length field -> (forall n, n < List.length field -> block n <> []) ->
  let ids := micro_ids_built (List.length field) block in
  let rows := micro_duplicate (List.length field) block field in
  List.length rows = List.length (flat_map block (seq 0 (List.length field))) /\
  List.length ids = List.length rows /\
  forall i x, i < List.length ids -> nth i rows x = nth (nth i ids 0) field x.
Proof.
  intros P NE. cbv zeta.
  assert (L : List.length (micro_ids_built (List.length field) block)
              = List.length (flat_map block (seq 0 (List.length field)))).
  { unfold micro_ids_built. generalize (seq 0 (List.length field)). intro l. induction l as [|u l IH]; [reflexivity|].
    cbn. rewrite !app_length, repeat_length, IH. reflexivity. }
  assert (x0 : X) by (destruct field as [|x f]; [cbn in P; lia|exact x]).
  split; [rewrite (duplicate_spec block field x0 P NE), map_length; exact L|].
  split; [rewrite (duplicate_spec block field x0 P NE), map_length; reflexivity|].
  intros i x Hi. rewrite (duplicate_spec block field x P NE).
  rewrite (nth_indep _ x (nth 0 field x)) by (rewrite map_length; exact Hi).
  rewrite (map_nth (fun n => nth n field x)). reflexivity.
Qed.
Print Assumptions C76_duplicates.

Example C76_applies : let block := fun n => match n with 0 => [1; 2] | _ => [3] end in
  micro_ids_built 2 block = [0; 0; 1] /\ micro_duplicate 2 block [7; 9] = [7; 7; 9].
Proof. split; reflexivity. Qed.
