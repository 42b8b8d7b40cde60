(** Theorems about tables: C152. *)
From Coq Require Import Ascii String List Arith Bool Lia.
From Verif Require Import TableModel TableSpec TableProofs.
Import ListNotations.

(** All lines of a table but its title have the same length. *)
Theorem C152_rectangle header data title border include li lines :
  format_lines header data title border include li = Some lines ->
  exists n rest, lines = match title with Some t => [t ++ lit ":"] | None => [] end ++ rest /\ forall l, In l rest -> length l = n.
Proof. intros H. destruct (lines_same_length header data li title border include lines H) as (rest & E & L). eexists. exists rest. split; [exact E|exact L]. Qed.
Print Assumptions C152_rectangle.

(** Tables can be read: what is above and below each run of dashes are labels and cells, up to surrounding spaces.  A row's missing cells are
    empty, and those after the last column are not displayed. *)
Theorem C152_read header data title border li : header <> [] ->
  (forall c s, In c header -> In s c -> on_one_line s) -> (forall r s, In r data -> In s r -> on_one_line s) -> (forall t, title = Some t -> on_one_line t) ->
  (forall j, j < length header -> used j (header_rows header ++ map (fitted (length header)) data)) ->
  exists s hdr dat dashes,
    format_table header data title border true li = Some s /\
    lines_of s = match title with Some t => [t ++ lit ":"] | None => [] end ++
      (if border then [repeat "="%char (length dashes)] else []) ++ hdr ++ [dashes] ++ dat ++ (if border then [repeat "="%char (length dashes)] else []) /\
    map (read_row dashes) hdr = map stripped (header_rows header) /\ map (read_row dashes) dat = map (fun r => stripped (fitted (length header) r)) data.
Proof.
  intros HN HL HC HT HU.
  assert (HU' : forall j, j < length header -> used j (header_rows header ++ data_rows (length header) data)).
  { intros j Hj. destruct (HU j Hj) as (r & Hr & N). apply in_app_iff in Hr. destruct Hr as [Hr|Hr].
    - exists r. split; [apply in_app_iff; left; exact Hr|exact N].
    - apply in_map_iff in Hr. destruct Hr as (r0 & <- & Hr). exists (r0 ++ repeat [] (length header - length r0)). split.
      + apply in_app_iff. right. apply in_map_iff. exists r0. split; [reflexivity|exact Hr].
      + rewrite <- data_row_fitted in N. intros K. apply N.
        rewrite <- (firstn_skipn (length header) (r0 ++ repeat [] (length header - length r0))) in K. rewrite app_nth1 in K; [exact K|].
        rewrite firstn_length, app_length, repeat_length. lia. }
  destruct (read_table header data li HN HL HC HU' title border) as (hdr & dat & dashes & E & H & D & N).
  unfold format_table. rewrite E. cbn [option_map]. eexists. exists hdr, dat, dashes. split; [reflexivity|]. split; [|split; [exact H|exact D]].
  apply lines_of_join.
  - intros K. apply app_eq_nil in K. destruct K as [_ K]. apply app_eq_nil in K. destruct K as [_ K]. apply app_eq_nil in K. destruct K as [_ K]. discriminate K.
  - assert (B : Forall on_one_line (if border then [repeat "="%char (length dashes)] else [])).
    { destruct border; repeat constructor. intros K. apply repeat_spec in K. discriminate K. }
    apply Forall_app. split.
    { destruct title as [t|]; repeat constructor. unfold on_one_line. rewrite in_app_iff. intros [K|K]; [exact (HT t eq_refl K)|cbn in K; intuition discriminate]. }
    apply Forall_app. split; [exact B|]. rewrite !app_assoc. apply Forall_app. split; [|exact B]. rewrite <- app_assoc. exact N.
Qed.
Print Assumptions C152_read.

(** Labels are displayed at the bottom of the header, the last one of each column in the last line, if no line of the header is empty. *)
Theorem C152_header header j : without_gaps header -> j < length header ->
  length (header_rows header) = label_height header /\
  column_of j (header_rows header) = repeat [] (label_height header - length (nth j header [])) ++ nth j header [].
Proof.
  intros G Hj. pose proof (column_gapless header j G Hj) as E. split; [|exact E].
  rewrite (header_rows_gapless header G), rev_length, map_length, seq_length. reflexivity.
Qed.
Print Assumptions C152_header.
(** Otherwise, labels above it are not displayed. *)
Theorem C152_gap : exists header j, j < length header /\ nth j header [] = [lit "Left out"; []; lit "Displayed"] /\
  header_rows header = [[lit "Displayed"; lit "Label"]].
Proof. exists [[lit "Left out"; []; lit "Displayed"]; [lit "Label"]], 0. repeat split. cbn. lia. Qed.
Print Assumptions C152_gap.

(** Rows that are displayed one by one under a header that is displayed with the first one are in the same columns, if each cell is either
    as wide as the one in the first row or neither of them is wider than a label. *)
Theorem C152_progress header li (r r' : list text) : header <> [] ->
  length r = length header -> length r' = length header ->
  (forall j, j < length header -> used j (header_rows header)) ->
  (forall j, j < length header ->
    length (nth j r []) = length (nth j r' []) \/
    exists s, In s (column_of j (header_rows header)) /\ length (nth j r []) <= length s /\ length (nth j r' []) <= length s) ->
  exists hdr dashes line line',
    format_lines header [r] None false true li = Some (hdr ++ [dashes; line]) /\ format_lines header [r'] None false false li = Some [line'] /\
    map (read_row dashes) hdr = map stripped (header_rows header) /\ read_row dashes line = stripped r /\ read_row dashes line' = stripped r' /\ length line = length line' /\ length dashes = length line.
Proof. exact (progress_lines header li r r'). Qed.
Print Assumptions C152_progress.

(** There is an error exactly if there are columns but no labels and no rows. *)
Theorem C152_error header data title border include li :
  format_lines header data title border include li = None <-> header <> [] /\ header_rows header = [] /\ data = [].
Proof. exact (no_table header data title border include li). Qed.
Print Assumptions C152_error.

(** A table of two columns, one of whose labels has two lines. *)
Definition example_header : list label := [[lit "GMM"; lit "Step"]; [lit "Objective"]].
Example C152_applies : example_header <> [] /\ without_gaps example_header /\
  (forall c s, In c example_header -> In s c -> on_one_line s) /\ (forall j, j < length example_header -> used j (header_rows example_header)) /\
  header_rows example_header = [[lit "GMM"; []]; [lit "Step"; lit "Objective"]] /\
  format_lines example_header [[lit "1"; lit "+2.5E+00"]; [lit "2"]] (Some (lit "Progress")) true true [0] = Some
    [lit "Progress:"; lit "=================="; lit "GMM   |           "; lit "Step  |  Objective"; lit "----  |  ---------";
     lit " 1    |  +2.5E+00 "; lit " 2    |           "; lit "=================="].
Proof.
  split; [discriminate|]. split.
  - intros r Hr. destruct r as [|[|[|r]]]; [cbn in Hr; lia| | |cbn in Hr; lia].
    + exists [lit "Objective"]. cbn. split; [auto|]. split; [lia|discriminate].
    + exists [lit "GMM"; lit "Step"]. cbn. split; [auto|]. split; [lia|discriminate].
  - split.
    + intros c s [<-|[<-|[]]] Hs; cbn [In] in Hs; repeat destruct Hs as [<-|Hs]; try destruct Hs; (unfold on_one_line; cbn; intuition discriminate).
    + split; [|split; reflexivity]. intros j Hj. exists [lit "Step"; lit "Objective"]. split; [cbn; auto|]. destruct j as [|[|j]]; [discriminate|discriminate|cbn in Hj; lia].
Qed.
(** A later row whose cells are not wider. *)
Example C152_progress_applies : let r := [lit "1"; lit "+2.5E+00"] in let r' := [lit "10"; lit "-1.0E-01"] in
  length r = length example_header /\ length r' = length example_header /\
  forall j, j < length example_header -> length (nth j r []) = length (nth j r' []) \/
    exists s, In s (column_of j (header_rows example_header)) /\ length (nth j r []) <= length s /\ length (nth j r' []) <= length s.
Proof.
  cbn zeta. split; [reflexivity|]. split; [reflexivity|]. intros j Hj. destruct j as [|[|j]]; [right|left; reflexivity|cbn in Hj; lia].
  exists (lit "Step"). cbn. split; [auto|lia].
Qed.
