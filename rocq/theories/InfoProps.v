(** C172: displayed information about problems. *)
From Coq Require Import Ascii String Reals Lra List Arith Bool Lia.
From Verif Require Import FltModel TableModel FormatModel FormatSpec DisplayModel DisplayProofs InfoModel InfoSpec InfoProofs.
Import ListNotations.

(** Each of the fourteen dimensions that is not zero is displayed beneath its name, and nothing else is. *)
Theorem C172_dimensions attribute :
  let header := fst (dimensions_table attribute) in let row := snd (dimensions_table attribute) in
  (forall k, In k (map lit ["T"; "N"; "F"; "I"; "K1"; "K2"; "K3"; "D"; "MD"; "MS"; "MC"; "ED"; "ES"; "H"]%string) ->
    (0 < attribute k -> exists t, beneath header row (lit " " ++ k ++ lit " ") = Some t /\ value t = Z.of_nat (attribute k)) /\
    (attribute k = 0 -> column header (lit " " ++ k ++ lit " ") = None)) /\
  length row = length header /\
  (forall l, In l header -> exists k, In k (map lit ["T"; "N"; "F"; "I"; "K1"; "K2"; "K3"; "D"; "MD"; "MS"; "MC"; "ED"; "ES"; "H"]%string) /\ l = (lit " " ++ k ++ lit " ") /\ 0 < attribute k).
Proof.
  intros header row. split; [|split].
  - intros k I. split.
    + intro P. exists (number_of (attribute k)). split; [exact (dimension_shown attribute k I P)|apply number_of_value].
    + exact (dimension_hidden attribute k).
  - unfold header, row. cbn [dimensions_table fst snd]. rewrite !map_length. reflexivity.
  - intros l I. apply In_nth_error in I. destruct I as [j E]. destruct (dimension_only attribute j l E) as (k & K & P & ->). exists k. auto.
Qed.
Print Assumptions C172_dimensions.

(** Each column of characteristics and demographics is displayed beneath its index in the row of its matrix, the name of which begins it; matrices without columns have no row. *)
Theorem C172_formulations x1 x2 x3 d c :
  let matrices := [(x1, lit "X1: Linear Characteristics"); (x2, lit "X2: Nonlinear Characteristics");
    (x3, match c with LinearCosts => lit "X3: Linear Cost Characteristics" | LogCosts => lit "X3: Log Cost Characteristics" end); (d, lit "d: Demographics")] in
  (formulations_table x1 x2 x3 d c = None <-> x1 = [] /\ x2 = [] /\ x3 = [] /\ d = []) /\
  (forall header data, formulations_table x1 x2 x3 d c = Some (header, data) ->
    (forall fs name, In (fs, name) matrices -> fs <> [] -> exists row, In row data /\ beneath header row (lit "Column Indices:") = Some name /\
      forall j f, nth_error fs j = Some f -> beneath header row (lit " " ++ number_of j ++ lit " ") = Some f) /\
    (forall row, In row data -> exists fs name, In (fs, name) matrices /\ fs <> [] /\ row = name :: fs)).
Proof.
  intro matrices. assert (M : matrices = named_formulations x1 x2 x3 d c) by (unfold matrices, named_formulations; destruct c; reflexivity). rewrite M. split; [|intros header data E; split].
  - unfold formulations_table, formulation_rows, named_formulations. cbn [flat_map fst snd].
    destruct x1, x2, x3, d; cbn [app]; split; try discriminate; try (intros (A & B & C & D); discriminate); auto.
  - exact (formulations_shown x1 x2 x3 d c header data E).
  - intros row I. apply formulation_row_only. unfold formulations_table in E. destruct (formulation_rows (named_formulations x1 x2 x3 d c)) eqn:R; [discriminate|]. injection E as _ <-. exact I.
Qed.
Print Assumptions C172_formulations.

(** The table of micro moments has a block of rows for each moment in turn, with a row for each of its parts in turn; the first row of a block, which is the one whose first cell is not blank, has the name and values of the moment. *)
Theorem C172_micro digits moments values : 0 < digits -> (forall v, values = Some v -> length v = length moments) ->
  let header := fst (micro_table digits moments values) in let shown := blocks (snd (micro_table digits moments values)) in
  length shown = length moments /\
  forall i m, nth_error moments i = Some m -> exists block, nth_error shown i = Some block /\ length block = S (length (other_parts m)) /\
    (forall k p, nth_error (first_part m :: other_parts m) k = Some p -> exists row, nth_error block k = Some row /\
      beneath header row (lit "Part") = Some (part_name p) /\ beneath header row (lit "Dataset") = Some (dataset_name (part_dataset p)) /\
      (exists t, beneath header row (lit "Observations") = Some t /\ value t = Z.of_nat (observations (part_dataset p))) /\
      match market_count (part_dataset p) with
      | None => beneath header row (lit "Markets") = Some (lit "All")
      | Some n => exists t, beneath header row (lit "Markets") = Some t /\ value t = Z.of_nat n
      end /\
      beneath header row (lit "Observed") = Some (if k =? 0 then format_number digits (Num (moment_value m)) else []) /\
      beneath header row (lit "Moment") = Some (if k =? 0 then moment_name m else []) /\
      match values with
      | None => column header (lit "Estimated") = None /\ column header (lit "Difference") = None
      | Some v => exists e, nth_error v i = Some e /\
          beneath header row (lit "Estimated") = Some (if k =? 0 then format_number digits e else []) /\
          beneath header row (lit "Difference") = Some (if k =? 0 then format_number digits (fsub (Num (moment_value m)) e) else [])
      end).
Proof.
  intros D V header shown. unfold shown. rewrite micro_blocks by exact D. split; [rewrite map_length, combine_length, seq_length; apply Nat.min_id|].
  intros i m E. exists (moment_rows digits m (estimate_of values i)). split; [rewrite nth_error_map, (combine_seq _ _ 0 i m E); reflexivity|]. split; [unfold moment_rows; cbn [length]; rewrite map_length; reflexivity|].
  intros k p Ek.
  assert (L : i < length moments) by (apply nth_error_Some; rewrite E; discriminate).
  assert (N : forall n, value (number_of n) = Z.of_nat n) by exact number_of_value.
  assert (Q : market_count (part_dataset p) = None \/ exists n, market_count (part_dataset p) = Some n) by (destruct (market_count (part_dataset p)); eauto).
  unfold header, micro_table, fst. destruct values as [v|]; unfold estimate_of.
  - assert (X : nth_error v i = Some (nth i v NaN)) by (apply nth_error_nth'; rewrite (V v eq_refl); exact L).
    destruct k as [|k]; cbn [nth_error] in Ek; [injection Ek as <-|]; (eexists; split; [unfold moment_rows; cbn [nth_error]; [reflexivity || (rewrite nth_error_map, Ek; reflexivity)]|]);
      (split; [reflexivity|]); (split; [reflexivity|]); (split; [eexists; split; [reflexivity|apply N]|]);
      (split; [destruct Q as [Q|[n Q]]; rewrite Q; [|exists (number_of n); split; [|apply N]]; cbv [beneath column micro_header part_cells format_markets]; rewrite Q; reflexivity|]);
      (split; [reflexivity|]); (split; [reflexivity|]); (exists (nth i v NaN); split; [exact X|]; split; reflexivity).
  - destruct k as [|k]; cbn [nth_error] in Ek; [injection Ek as <-|]; (eexists; split; [unfold moment_rows; cbn [nth_error]; [reflexivity || (rewrite nth_error_map, Ek; reflexivity)]|]);
      (split; [reflexivity|]); (split; [reflexivity|]); (split; [eexists; split; [reflexivity|apply N]|]);
      (split; [destruct Q as [Q|[n Q]]; rewrite Q; [|exists (number_of n); split; [|apply N]]; cbv [beneath column micro_header part_cells format_markets]; rewrite Q; reflexivity|]);
      (split; [reflexivity|]); (split; [reflexivity|]); (split; reflexivity).
Qed.
Print Assumptions C172_micro.

(** A moment with two parts and one with one part from datasets with and without market IDs. *)
Definition survey : dataset := mk_dataset (lit "Survey") 120 (Some 3).
Definition census : dataset := mk_dataset (lit "Census") 4000 None.
Definition two_moments : list moment :=
  [mk_moment (lit "Ratio") 2 (mk_part (lit "Income") survey) [mk_part (lit "Chosen") census]; mk_moment (lit "Share") (1 / 2) (mk_part (lit "Age") census) []].
Example C172_applies :
  (forall v, Some [Num 1; NaN] = Some v -> length v = length two_moments) /\ map (@length _) (blocks (snd (micro_table 7 two_moments (Some [Num 1; NaN])))) = [2; 1] /\
  fst (dimensions_table (fun k => length k)) = map spaced dimension_keys /\
  formulations_table [lit "1"; lit "prices"] [] [lit "w"] [] LogCosts =
    Some ([lit "Column Indices:"; lit " 0 "; lit " 1 "], [[lit "X1: Linear Characteristics"; lit "1"; lit "prices"]; [lit "X3: Log Cost Characteristics"; lit "w"]]).
Proof.
  split; [intros v E; injection E as <-; reflexivity|]. split; [rewrite micro_blocks by lia; reflexivity|]. split; reflexivity.
Qed.
