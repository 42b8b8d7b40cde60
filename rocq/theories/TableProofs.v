(** Tables: proofs. *)
From Coq Require Import Ascii String List Arith Bool Lia.
From Verif Require Import TableModel TableSpec.
Import ListNotations.

(* ---------- Text ---------- *)
Lemma strip_left_blanks n s : strip_left (repeat blank n ++ s) = strip_left s.
Proof. induction n as [|n IH]; [reflexivity|exact IH]. Qed.
Lemma strip_left_app s t : strip_left (s ++ t) = match strip_left s with [] => strip_left t | s' => s' ++ t end.
Proof.
  induction s as [|x s IH]; [reflexivity|]. cbn [strip_left app]. destruct (Ascii.eqb x blank) eqn:E; [exact IH|reflexivity].
Qed.
Lemma repeat_rev {A} (x : A) n : rev (repeat x n) = repeat x n.
Proof. induction n as [|n IH]; [reflexivity|]. cbn. rewrite IH. symmetry. exact (repeat_cons n x). Qed.
Lemma strip_centered w s : strip (centered_in w s) = strip s.
Proof.
  unfold strip, centered_in. set (e := w - length s). rewrite strip_left_blanks, strip_left_app.
  destruct (strip_left s) as [|x s'] eqn:E.
  - rewrite <- (app_nil_r (repeat blank (e - e / 2))), strip_left_blanks. reflexivity.
  - rewrite rev_app_distr, repeat_rev, strip_left_blanks. reflexivity.
Qed.
Lemma centered_length w s : length s <= w -> length (centered_in w s) = w.
Proof.
  intros H. unfold centered_in. rewrite !app_length, !repeat_length.
  assert ((w - length s) / 2 <= w - length s) by (apply Nat.div_le_upper_bound; lia). lia.
Qed.
Lemma centered_full w s : length s = w -> centered_in w s = s.
Proof. intros <-. unfold centered_in. rewrite Nat.sub_diag. cbn. apply app_nil_r. Qed.

(* ---------- Rows ---------- *)
Definition separator (line_indices : list nat) (i : nat) (last : bool) : text :=
  (if existsb (Nat.eqb i) line_indices then lit "  |" else []) ++ (if last then [] else lit "  ").
Lemma format_row_cons li i w ws c row : format_row li i (w :: ws) (c :: row) =
  centered_in w c ++ separator li i (match ws with [] => true | _ => false end) ++ format_row li (S i) ws row.
Proof. cbn [format_row hd tl]. unfold separator. destruct ws; rewrite <- ?app_assoc; reflexivity. Qed.
Lemma separator_no_dash li i last : ~ In "-"%char (separator li i last).
Proof. unfold separator. destruct (existsb (Nat.eqb i) li), last; cbn; intuition discriminate. Qed.
Lemma separator_no_newline li i last : ~ In newline (separator li i last).
Proof. unfold separator. destruct (existsb (Nat.eqb i) li), last; cbn; intuition discriminate. Qed.
Lemma separator_nonempty li i : separator li i false <> [].
Proof. unfold separator. destruct (existsb (Nat.eqb i) li); cbn; discriminate. Qed.

(** Rows whose cells are not wider than columns. *)
Definition fits (ws : list nat) (row : list text) : Prop := Forall2 (fun w c => length c <= w) ws row.
Lemma format_row_length li ws : forall i r r', fits ws r -> fits ws r' -> length (format_row li i ws r) = length (format_row li i ws r').
Proof.
  induction ws as [|w ws IH]; intros i r r' F F'; [reflexivity|]. inversion F; inversion F'; subst.
  rewrite !format_row_cons, !app_length, !centered_length by assumption. rewrite (IH (S i) l' l'0) by assumption. reflexivity.
Qed.
Lemma dashes_fit ws : fits ws (map (repeat "-"%char) ws).
Proof. induction ws as [|w ws IH]; constructor; [rewrite repeat_length; apply le_n|exact IH]. Qed.
Lemma nothing_fits ws : fits ws (map (fun _ => []) ws).
Proof. induction ws as [|w ws IH]; constructor; [apply Nat.le_0_l|exact IH]. Qed.

Lemma above_dashes x : forall acc d l, above (Some acc) (repeat "-"%char (length x) ++ d) (x ++ l) = above (Some (acc ++ x)) d l.
Proof.
  induction x as [|a x IH]; intros acc d l; [rewrite app_nil_r; reflexivity|].
  cbn [length repeat app above]. change (Ascii.eqb "-" "-") with true. cbn match. rewrite IH, <- app_assoc. reflexivity.
Qed.
Lemma above_nothing s : ~ In "-"%char s -> forall d l, above None (s ++ d) (s ++ l) = above None d l.
Proof.
  induction s as [|a s IH]; intros H d l; [reflexivity|]. cbn [app above].
  destruct (Ascii.eqb_spec a "-"%char) as [->|_]; [destruct H; left; reflexivity|]. cbn [app]. apply IH. intros K. apply H. right. exact K.
Qed.
Lemma above_end acc s : ~ In "-"%char s -> s <> [] -> forall d l, above (Some acc) (s ++ d) (s ++ l) = acc :: above None d l.
Proof.
  destruct s as [|a s]; [congruence|]. intros H _ d l. cbn [app above].
  destruct (Ascii.eqb_spec a "-"%char) as [->|_]; [destruct H; left; reflexivity|]. cbn [app]. f_equal.
  apply above_nothing. intros K. apply H. right. exact K.
Qed.
Lemma above_cell x d l : x <> [] -> above None (repeat "-"%char (length x) ++ d) (x ++ l) = above (Some x) d l.
Proof.
  destruct x as [|a x]; [congruence|]. intros _. cbn [length repeat app above]. change (Ascii.eqb "-" "-") with true. cbn match.
  exact (above_dashes x [a] d l).
Qed.
Lemma above_row li ws : forall i row, fits ws row -> Forall (fun w => 0 < w) ws ->
  above None (format_row li i ws (map (repeat "-"%char) ws)) (format_row li i ws row) = map (fun p => centered_in (fst p) (snd p)) (combine ws row).
Proof.
  induction ws as [|w ws IH]; intros i row F P; [reflexivity|].
  inversion F as [|w0 c ws0 row' Fc Fr]; subst. inversion P; subst. cbn [map]. rewrite !format_row_cons.
  rewrite centered_full by apply repeat_length. cbn [combine map fst snd].
  pose proof (centered_length w c Fc) as L. revert L. generalize (centered_in w c). intros x L.
  assert (X : x <> []) by (intros ->; cbn in L; lia). rewrite <- L. rewrite above_cell by exact X.
  destruct ws as [|w' ws].
  - inversion Fr; subst. cbn [combine map]. cbn [format_row]. rewrite app_nil_r.
    destruct (separator li i true) as [|a s] eqn:E; [reflexivity|].
    rewrite <- (app_nil_r (a :: s)). rewrite above_end; [reflexivity| |discriminate]. rewrite <- E. apply separator_no_dash.
  - rewrite above_end by (apply separator_no_dash || apply separator_nonempty). f_equal. apply IH; assumption.
Qed.
Lemma strip_cells ws : forall row, length row = length ws ->
  map strip (map (fun p => centered_in (fst p) (snd p)) (combine ws row)) = map strip row.
Proof.
  induction ws as [|w ws IH]; intros row L; destruct row as [|c row]; try discriminate L; [reflexivity|].
  cbn [combine map fst snd]. rewrite strip_centered. f_equal. apply IH. injection L; auto.
Qed.
Lemma read_row_correct li ws row : fits ws row -> Forall (fun w => 0 < w) ws ->
  read_row (format_row li 0 ws (map (repeat "-"%char) ws)) (format_row li 0 ws row) = stripped row.
Proof.
  intros F P. unfold read_row. rewrite above_row by assumption. apply strip_cells. clear - F. induction F; cbn; congruence.
Qed.
Lemma format_row_firstn li ws : forall i row, length ws <= length row -> format_row li i ws row = format_row li i ws (firstn (length ws) row).
Proof.
  induction ws as [|w ws IH]; intros i row L; [reflexivity|]. destruct row as [|c row]; [cbn in L; lia|].
  cbn [length firstn]. rewrite !format_row_cons. rewrite (IH (S i) row) by (cbn in L; lia). reflexivity.
Qed.
Lemma format_row_newline li ws : forall i row, fits ws row -> Forall on_one_line row -> ~ In newline (format_row li i ws row).
Proof.
  induction ws as [|w ws IH]; intros i row F T; [exact (fun h => h)|]. inversion F; subst. inversion T; subst.
  rewrite format_row_cons. rewrite !in_app_iff. unfold centered_in. rewrite !in_app_iff.
  intros [[K|[K|K]]|[K|K]].
  - apply repeat_spec in K. discriminate K.
  - contradiction.
  - apply repeat_spec in K. discriminate K.
  - exact (separator_no_newline _ _ _ K).
  - exact (IH (S i) l' ltac:(assumption) ltac:(assumption) K).
Qed.

(* ---------- Headers ---------- *)
Lemma header_row_length header r : length (header_row header r) = length header.
Proof. apply map_length. Qed.
Lemma empty_iff header r : forallb is_empty (header_row header r) = true <-> forall c, In c header -> r <= length c -> nth (length c - r) c [] = [].
Proof.
  unfold header_row. rewrite forallb_forall. split.
  - intros H c Hc L. specialize (H _ (in_map _ _ _ Hc)). cbn beta in H. destruct (Nat.ltb_spec (length c) r); [lia|].
    destruct (nth (length c - r) c []); [reflexivity|discriminate H].
  - intros H s Hs. apply in_map_iff in Hs. destruct Hs as (c & <- & Hc). destruct (Nat.ltb_spec (length c) r); [reflexivity|].
    rewrite (H c Hc) by lia. reflexivity.
Qed.
Lemma label_height_le header c : In c header -> length c <= label_height header.
Proof.
  intros H. unfold label_height. pose proof (proj1 (list_max_le (map (@length text) header) _) (le_n _)) as F.
  rewrite Forall_forall in F. apply F. exact (in_map _ _ _ H).
Qed.
Lemma header_loop_gapless header : without_gaps header -> forall k fuel r, 1 <= r -> r + k = S (label_height header) -> k < fuel ->
  header_loop header fuel r = rev (map (header_row header) (seq r k)).
Proof.
  intros G k. induction k as [|k IH]; intros fuel r R E F; (destruct fuel as [|fuel]; [lia|]); cbn [header_loop].
  - replace (forallb is_empty (header_row header r)) with true; [reflexivity|]. symmetry. apply empty_iff.
    intros c Hc L. pose proof (label_height_le header c Hc). lia.
  - destruct (forallb is_empty (header_row header r)) eqn:B.
    + exfalso. destruct (G r ltac:(lia)) as (c & Hc & L & N). apply N. exact (proj1 (empty_iff header r) B c Hc L).
    + cbn [seq map rev]. rewrite (IH fuel (S r)) by lia. reflexivity.
Qed.
Lemma header_rows_gapless header : without_gaps header -> header_rows header = rev (map (header_row header) (seq 1 (label_height header))).
Proof. intros G. unfold header_rows. apply (header_loop_gapless header G); unfold label_height; lia. Qed.
Lemma header_loop_rows header : forall fuel r row, In row (header_loop header fuel r) -> length row = length header /\ exists r', row = header_row header r'.
Proof.
  induction fuel as [|fuel IH]; intros r row H; [destruct H|]. cbn [header_loop] in H. destruct (forallb _ _); [destruct H|].
  apply in_app_iff in H. destruct H as [H|[<-|[]]]; [exact (IH _ _ H)|]. split; [apply header_row_length|eexists; reflexivity].
Qed.
(** Columns of a header without gaps. *)
Lemma rev_seq_map {A} (f : nat -> A) n : rev (map f (seq 1 n)) = map (fun i => f (n - i)) (seq 0 n).
Proof.
  induction n as [|n IH]; [reflexivity|]. rewrite seq_S, map_app, rev_app_distr. cbn [map rev app seq plus]. f_equal.
  rewrite IH. rewrite <- seq_shift, map_map. apply map_ext. intros i. f_equal.
Qed.
Lemma column_gapless header j : without_gaps header -> j < length header ->
  column_of j (header_rows header) = repeat [] (label_height header - length (nth j header [])) ++ nth j header [].
Proof.
  intros G Hj. rewrite (header_rows_gapless header G), rev_seq_map. unfold column_of. rewrite map_map.
  set (c := nth j header []). pose proof (label_height_le header c (nth_In header [] Hj)) as L. set (h := label_height header) in *.
  apply nth_ext with (d := []) (d' := []).
  { rewrite map_length, seq_length, app_length, repeat_length. lia. }
  rewrite map_length, seq_length. intros n Hn.
  rewrite (nth_indep _ [] (nth j (header_row header (h - 0)) [])) by (rewrite map_length, seq_length; exact Hn).
  rewrite (map_nth (fun x => nth j (header_row header (h - x)) []) (seq 0 h) 0 n). rewrite seq_nth by exact Hn. cbn [plus].
  unfold header_row. set (f := fun c0 : list text => if length c0 <? h - n then [] else nth (length c0 - (h - n)) c0 []).
  rewrite (nth_indep (map f header) [] (f [])) by (rewrite map_length; exact Hj). rewrite map_nth. fold c. unfold f. destruct (Nat.ltb_spec (length c) (h - n)).
  - rewrite app_nth1 by (rewrite repeat_length; lia). rewrite nth_repeat. reflexivity.
  - rewrite app_nth2 by (rewrite repeat_length; lia). rewrite repeat_length. f_equal. lia.
Qed.

(* ---------- Widths ---------- *)
Lemma column_width_le rows j r : In r rows -> length (nth j r []) <= column_width rows j.
Proof.
  intros H. unfold column_width. pose proof (proj1 (list_max_le (map (fun r => length (nth j r [])) rows) _) (le_n _)) as F.
  rewrite Forall_forall in F. apply F. apply in_map_iff. exists r. split; [reflexivity|exact H].
Qed.
Lemma fits_columns rows r : forall n s, In r rows -> n + s = length r -> fits (map (column_width rows) (seq s n)) (skipn s r).
Proof.
  induction n as [|n IH]; intros s H E.
  - rewrite skipn_all2 by lia. constructor.
  - cbn [seq map]. assert (K : skipn s r = nth s r [] :: skipn (S s) r).
    { clear - E. revert s E. induction r as [|a r IH]; intros s E; cbn [length] in E; [lia|]. destruct s; [reflexivity|]. exact (IH s ltac:(lia)). }
    rewrite K. constructor; [exact (column_width_le rows s r H)|]. apply IH; [exact H|lia].
Qed.
Lemma column_width_firstn rows n j : j < n -> column_width (map (firstn n) rows) j = column_width rows j.
Proof.
  intros H. unfold column_width. rewrite map_map. f_equal. apply map_ext. intros r. f_equal. revert j r H.
  induction n as [|n IH]; intros j r H; [lia|]. destruct r as [|c r]; [destruct j; reflexivity|]. destruct j; [reflexivity|]. cbn [firstn nth]. apply IH. lia.
Qed.
Lemma fits_table rows n r : In r rows -> n <= length r -> fits (map (column_width rows) (seq 0 n)) (firstn n r).
Proof.
  intros H L. rewrite (map_ext_in _ (column_width (map (firstn n) rows))).
  - pose proof (fits_columns (map (firstn n) rows) (firstn n r) n 0) as F. cbn [skipn] in F. apply F; [exact (in_map _ _ _ H)|]. rewrite firstn_length. lia.
  - intros j Hj. apply in_seq in Hj. symmetry. apply column_width_firstn. lia.
Qed.
Lemma used_width rows j : used j rows -> 0 < column_width rows j.
Proof.
  intros (r & H & N). pose proof (column_width_le rows j r H) as L. destruct (nth j r []) as [|a s]; [congruence|]. cbn in L. lia.
Qed.
Lemma data_row_fitted columns r : firstn columns (r ++ repeat [] (columns - length r)) = fitted columns r.
Proof.
  unfold fitted. destruct (Nat.le_gt_cases columns (length r)).
  - rewrite !firstn_app. replace (columns - length r) with 0 by lia. reflexivity.
  - rewrite !firstn_app. f_equal. rewrite !firstn_all2 by (rewrite ?repeat_length; lia).
    assert (K : firstn (columns - length r) (repeat (@nil ascii) columns) = repeat [] (columns - length r)); [|rewrite K; reflexivity].
    replace columns with ((columns - length r) + length r) at 2 by lia. rewrite repeat_app, firstn_app, repeat_length, Nat.sub_diag. cbn [firstn]. rewrite app_nil_r.
    apply firstn_all2. rewrite repeat_length. lia.
Qed.

(* ---------- Lines ---------- *)
Lemma lines_of_app s t : ~ In newline s -> lines_of (s ++ newline :: t) = s :: lines_of t.
Proof.
  induction s as [|x s IH]; intros H; cbn [app lines_of].
  - rewrite (proj2 (Ascii.eqb_eq newline newline) eq_refl). reflexivity.
  - destruct (Ascii.eqb_spec x newline) as [->|_]; [destruct H; left; reflexivity|]. rewrite IH by (intros K; apply H; right; exact K). reflexivity.
Qed.
Lemma lines_of_one s : ~ In newline s -> lines_of s = [s].
Proof.
  induction s as [|x s IH]; intros H; [reflexivity|]. cbn [lines_of].
  destruct (Ascii.eqb_spec x newline) as [->|_]; [destruct H; left; reflexivity|]. rewrite IH by (intros K; apply H; right; exact K). reflexivity.
Qed.
Lemma lines_of_join lines : lines <> [] -> Forall on_one_line lines -> lines_of (join_lines lines) = lines.
Proof.
  induction lines as [|l lines IH]; [congruence|]. intros _ F. inversion F; subst. destruct lines as [|l' lines]; [apply lines_of_one; assumption|].
  change (join_lines (l :: l' :: lines)) with (l ++ newline :: join_lines (l' :: lines)). rewrite lines_of_app by assumption.
  rewrite IH; [reflexivity|discriminate|assumption].
Qed.

(* ---------- Tables ---------- *)
Lemma widths_cases n rows : widths n rows = Some (map (column_width rows) (seq 0 n)) \/ widths n rows = None.
Proof. unfold widths. destruct n, rows; auto. Qed.
Lemma widths_some n rows : rows <> [] -> widths n rows = Some (map (column_width rows) (seq 0 n)).
Proof. unfold widths. destruct n, rows; congruence. Qed.
Section Table.
  Variables (header : list label) (data : list (list text)) (li : list nat).
  Notation columns := (length header).
  Notation rows := (header_rows header ++ data_rows columns data).
  Notation ws := (map (column_width rows) (seq 0 columns)).

  Lemma ws_length : length ws = columns.
  Proof using. rewrite map_length, seq_length. reflexivity. Qed.
  Lemma header_rows_length r : In r (header_rows header) -> length r = columns.
  Proof using. intros H. exact (proj1 (header_loop_rows header _ _ r H)). Qed.
  Lemma data_rows_length r : In r (data_rows columns data) -> columns <= length r.
  Proof using. intros H. apply in_map_iff in H. destruct H as (r0 & <- & _). rewrite app_length, repeat_length. lia. Qed.
  Lemma row_length r : In r rows -> columns <= length r.
  Proof using. intros H. apply in_app_iff in H. destruct H as [H|H]; [rewrite (header_rows_length r H); lia|exact (data_rows_length r H)]. Qed.
  Lemma row_fits r : In r rows -> fits ws (firstn columns r).
  Proof using. intros H. exact (fits_table rows columns r H (row_length r H)). Qed.
  Lemma row_template r : In r rows -> format_row li 0 ws r = format_row li 0 ws (firstn columns r).
  Proof using. intros H. rewrite (format_row_firstn li ws 0 r) by (rewrite ws_length; exact (row_length r H)). rewrite ws_length. reflexivity. Qed.

  (** Every line but the title has the same length. *)
  Lemma lines_same_length title border include lines :
    format_lines header data title border include li = Some lines ->
    exists rest, lines = match title with Some t => [t ++ lit ":"] | None => [] end ++ rest /\
    forall l, In l rest -> length l = length (format_row li 0 ws (map (fun _ => []) ws)).
  Proof using.
    unfold format_lines. intros H. destruct (widths_cases columns rows) as [W|W]; rewrite W in H; [|discriminate H]. injection H as <-. eexists. split; [reflexivity|].
    assert (T : forall r, In r rows -> length (format_row li 0 ws r) = length (format_row li 0 ws (map (fun _ => []) ws))).
    { intros r Hr. rewrite (row_template r Hr). apply format_row_length; [exact (row_fits r Hr)|apply nothing_fits]. }
    assert (B : forall l, In l (if border then [repeat "="%char (length (format_row li 0 ws (map (fun _ => []) ws)))] else []) -> length l = length (format_row li 0 ws (map (fun _ => []) ws))).
    { intros l. destruct border; [|intros []]. intros [<-|[]]. apply repeat_length. }
    intros l Hl. rewrite !in_app_iff in Hl. destruct Hl as [Hl|[Hl|[Hl|Hl]]]; [exact (B l Hl)| | |exact (B l Hl)].
    - destruct include; [|destruct Hl]. apply in_app_iff in Hl. destruct Hl as [Hl|[<-|[]]].
      + apply in_map_iff in Hl. destruct Hl as (r & <- & Hr). apply T. apply in_app_iff. left. exact Hr.
      + apply format_row_length; [apply dashes_fit|apply nothing_fits].
    - apply in_map_iff in Hl. destruct Hl as (r & <- & Hr). apply T. apply in_app_iff. right. exact Hr.
  Qed.
  (** A table can be read. *)
  Lemma firstn_on_one_line (P : text -> Prop) n : forall r, Forall P r -> Forall P (firstn n r).
  Proof using. induction n as [|n IH]; intros r F; [constructor|]. destruct F; constructor; auto. Qed.
  Hypothesis Hcolumns : header <> [].
  Hypothesis Hlabels : forall c s, In c header -> In s c -> on_one_line s.
  Hypothesis Hcells : forall r s, In r data -> In s r -> on_one_line s.
  Hypothesis Hused : forall j, j < columns -> used j rows.
  Lemma on_one_line_empty : on_one_line [].
  Proof using. intros []. Qed.
  Lemma on_one_line_rows r : In r rows -> Forall on_one_line r.
  Proof using Hlabels Hcells.
    intros H. apply in_app_iff in H. apply Forall_forall. intros s Hs. destruct H as [H|H].
    - destruct (proj2 (header_loop_rows header _ _ r H)) as [k ->]. apply in_map_iff in Hs. destruct Hs as (c & <- & Hc).
      destruct (length c <? k) eqn:E; [exact on_one_line_empty|]. destruct (Nat.lt_ge_cases (length c - k) (length c)) as [L|L].
      + exact (Hlabels c _ Hc (nth_In c [] L)).
      + rewrite nth_overflow by exact L. exact on_one_line_empty.
    - apply in_map_iff in H. destruct H as (r0 & <- & Hr). apply in_app_iff in Hs. destruct Hs as [Hs|Hs]; [exact (Hcells r0 s Hr Hs)|].
      rewrite (repeat_spec _ _ _ Hs). exact on_one_line_empty.
  Qed.
  Lemma ws_positive : Forall (fun w => 0 < w) ws.
  Proof using Hused.
    apply Forall_forall. intros w Hw. apply in_map_iff in Hw. destruct Hw as (j & <- & Hj). apply in_seq in Hj. apply used_width. apply Hused. lia.
  Qed.
  Lemma table_widths : widths columns rows = Some ws.
  Proof using Hcolumns Hused.
    apply widths_some. intros E. assert (L : 0 < columns) by (clear - Hcolumns; destruct header; [congruence|cbn; lia]).
    destruct (Hused 0 L) as (r & K & _).
    rewrite E in K. exact K.
  Qed.
  Lemma read_table title border : exists hdr dat dashes,
    format_lines header data title border true li = Some (
      match title with Some t => [t ++ lit ":"] | None => [] end ++
      (if border then [repeat "="%char (length dashes)] else []) ++ hdr ++ [dashes] ++ dat ++ (if border then [repeat "="%char (length dashes)] else [])) /\
    map (read_row dashes) hdr = map stripped (header_rows header) /\ map (read_row dashes) dat = map (fun r => stripped (fitted columns r)) data /\
    Forall on_one_line (hdr ++ [dashes] ++ dat).
  Proof using Hcolumns Hlabels Hcells Hused.
    exists (map (format_row li 0 ws) (header_rows header)), (map (format_row li 0 ws) (data_rows columns data)), (format_row li 0 ws (map (repeat "-"%char) ws)).
    assert (R : forall r, In r rows -> read_row (format_row li 0 ws (map (repeat "-"%char) ws)) (format_row li 0 ws r) = stripped (firstn columns r)).
    { intros r Hr. rewrite (row_template r Hr). apply read_row_correct; [exact (row_fits r Hr)|exact ws_positive]. }
    assert (NL : forall r, In r rows -> ~ In newline (format_row li 0 ws r)).
    { intros r Hr. rewrite (row_template r Hr). apply format_row_newline; [exact (row_fits r Hr)|].
      apply firstn_on_one_line. exact (on_one_line_rows r Hr). }
    split; [|split; [|split]].
    - unfold format_lines. rewrite table_widths. rewrite (format_row_length li ws 0 (map (fun _ => []) ws) (map (repeat "-"%char) ws)) by (apply nothing_fits || apply dashes_fit).
      rewrite <- !app_assoc. reflexivity.
    - rewrite map_map. apply map_ext_in. intros r Hr. rewrite R by (apply in_app_iff; left; exact Hr). f_equal.
      apply firstn_all2. rewrite (header_rows_length r Hr). apply le_n.
    - transitivity (map (fun r => stripped (firstn columns r)) (data_rows columns data)).
      + rewrite map_map. apply map_ext_in. intros r Hr. apply R. apply in_app_iff. right. exact Hr.
      + unfold data_rows. rewrite map_map. apply map_ext. intros r. f_equal. apply data_row_fitted.
    - apply Forall_forall. intros l Hl. rewrite !in_app_iff in Hl. destruct Hl as [Hl|[[<-|[]]|Hl]].
      + apply in_map_iff in Hl. destruct Hl as (r & <- & Hr). apply NL. apply in_app_iff. left. exact Hr.
      + apply format_row_newline; [apply dashes_fit|]. apply Forall_forall. intros s Hs. apply in_map_iff in Hs. destruct Hs as (w & <- & _).
        intros K. apply repeat_spec in K. discriminate K.
      + apply in_map_iff in Hl. destruct Hl as (r & <- & Hr). apply NL. apply in_app_iff. right. exact Hr.
  Qed.
End Table.

(* ---------- Tables that are displayed row by row ---------- *)
Lemma column_width_app rows rows' j : column_width (rows ++ rows') j = Nat.max (column_width rows j) (column_width rows' j).
Proof. unfold column_width. rewrite map_app. apply list_max_app. Qed.
Lemma column_width_one r j : column_width [r] j = length (nth j r []).
Proof. unfold column_width. cbn. lia. Qed.
Lemma within_labels rows (r r' : list text) j :
  length (nth j r []) = length (nth j r' []) \/ (exists s, In s (column_of j rows) /\ length (nth j r []) <= length s /\ length (nth j r' []) <= length s) ->
  column_width (rows ++ [r]) j = column_width (rows ++ [r']) j.
Proof.
  intros H. rewrite !column_width_app, !column_width_one. destruct H as [->|(s & Hs & L & L')]; [reflexivity|].
  apply in_map_iff in Hs. destruct Hs as (q & <- & Hq). pose proof (column_width_le rows j q Hq). lia.
Qed.
Lemma progress_lines header li (r r' : list text) : header <> [] ->
  length r = length header -> length r' = length header ->
  (forall j, j < length header -> used j (header_rows header)) ->
  (forall j, j < length header ->
    length (nth j r []) = length (nth j r' []) \/
    exists s, In s (column_of j (header_rows header)) /\ length (nth j r []) <= length s /\ length (nth j r' []) <= length s) ->
  exists hdr dashes line line',
    format_lines header [r] None false true li = Some (hdr ++ [dashes; line]) /\ format_lines header [r'] None false false li = Some [line'] /\
    map (read_row dashes) hdr = map stripped (header_rows header) /\ read_row dashes line = stripped r /\ read_row dashes line' = stripped r' /\ length line = length line' /\ length dashes = length line.
Proof.
  intros HN L L' U W.
  assert (D : forall q, length q = length header -> data_rows (length header) [q] = [q]).
  { intros q Hq. unfold data_rows. cbn [map]. rewrite Hq, Nat.sub_diag. cbn [repeat]. rewrite app_nil_r. reflexivity. }
  set (ws := map (column_width (header_rows header ++ [r])) (seq 0 (length header))).
  assert (E : map (column_width (header_rows header ++ [r'])) (seq 0 (length header)) = ws).
  { apply map_ext_in. intros j Hj. apply in_seq in Hj. symmetry. apply within_labels. apply W. lia. }
  assert (Wl : length ws = length header) by (unfold ws; rewrite map_length, seq_length; reflexivity).
  assert (P : Forall (fun w => 0 < w) ws).
  { apply Forall_forall. intros w Hw. apply in_map_iff in Hw. destruct Hw as (j & <- & Hj). apply in_seq in Hj. rewrite column_width_app.
    pose proof (used_width _ _ (U j ltac:(lia))). lia. }
  assert (F : forall q, In q (header_rows header ++ [r]) -> length q = length header -> fits ws q).
  { intros q Hq Lq. pose proof (fits_table (header_rows header ++ [r]) (length header) q Hq ltac:(lia)) as K. rewrite firstn_all2 in K by lia. exact K. }
  assert (F' : fits ws r').
  { rewrite <- E. pose proof (fits_table (header_rows header ++ [r']) (length header) r' ltac:(apply in_app_iff; right; left; reflexivity) ltac:(lia)) as K.
    rewrite firstn_all2 in K by lia. exact K. }
  assert (Fr : fits ws r) by (apply F; [apply in_app_iff; right; left; reflexivity|exact L]).
  exists (map (format_row li 0 ws) (header_rows header)), (format_row li 0 ws (map (repeat "-"%char) ws)), (format_row li 0 ws r), (format_row li 0 ws r').
  split; [|split; [|split; [|split; [|split; [|split]]]]].
  - unfold format_lines. rewrite (D r L), widths_some by (destruct (header_rows header); discriminate). fold ws. cbn [map app]. rewrite <- app_assoc. reflexivity.
  - unfold format_lines. rewrite (D r' L'), widths_some by (destruct (header_rows header); discriminate). rewrite E. reflexivity.
  - rewrite map_map. apply map_ext_in. intros q Hq.
    apply read_row_correct; [|exact P]. apply F; [apply in_app_iff; left; exact Hq|exact (header_rows_length header q Hq)].
  - apply read_row_correct; auto.
  - apply read_row_correct; auto.
  - apply format_row_length; assumption.
  - apply format_row_length; [apply dashes_fit|assumption].
Qed.
(** When nothing can be displayed. *)
Lemma no_table header data title border include li :
  format_lines header data title border include li = None <-> header <> [] /\ header_rows header = [] /\ data = [].
Proof.
  unfold format_lines. set (rows := header_rows header ++ data_rows (length header) data).
  assert (W : widths (length header) rows = None <-> length header <> 0 /\ rows = []).
  { unfold widths. destruct (length header), rows; split; try discriminate; try (intros [? ?]; congruence). intros _. split; [discriminate|reflexivity]. }
  assert (R : rows = [] <-> header_rows header = [] /\ data = []).
  { unfold rows, data_rows. split.
    - intros K. apply app_eq_nil in K. destruct K as [K K']. split; [exact K|]. apply map_eq_nil in K'. exact K'.
    - intros [-> ->]. reflexivity. }
  assert (Z : length header <> 0 <-> header <> []) by (destruct header; cbn; split; congruence).
  destruct (widths (length header) rows) as [ws|].
  - split; [discriminate|]. intros (A & B & C). assert (K : Some ws = None) by (apply W; split; [apply Z; exact A|apply R; split; assumption]). discriminate K.
  - split; [|reflexivity]. intros _. destruct (proj1 W eq_refl) as [A B]. split; [apply Z; exact A|apply R; exact B].
Qed.
