(** Tables in which information about problems, progress and results is displayed.  pyblp/utilities/basics.py 359-406.
    Strings are lists of characters.  Definitions only. *)
From Coq Require Import Ascii String List Arith Bool.
Import ListNotations.

Notation text := (list ascii).
Definition blank : ascii := " "%char.
(** String literals. *)
Definition lit (s : string) : text := list_ascii_of_string s.

(** An element of a header: a string stands for the sequence that has only it.  basics.py 374. *)
Notation label := (list text).
(** [["" if len(c) < -row_index else c[row_index] for c in header]], where row_index is -r and r is 1, 2 and so on.  basics.py 376. *)
Definition header_row (header : list label) (r : nat) : list text :=
  map (fun c => if length c <? r then [] else nth (length c - r) c []) header.
(** [not any(header_row)].  basics.py 377. *)
Definition is_empty (s : text) : bool := match s with [] => true | _ => false end.
(** The loop that inserts rows at the front.  Rows after the longest label are empty, so it takes no more steps than fuel.
    basics.py 371-380. *)
Fixpoint header_loop (header : list label) (fuel r : nat) : list (list text) :=
  match fuel with
  | 0 => []
  | S fuel' => let row := header_row header r in
      if forallb is_empty row then [] else header_loop header fuel' (S r) ++ [row]
  end.
Definition header_rows (header : list label) : list (list text) := header_loop header (S (list_max (map (@length text) header))) 1.
(** [[str(c) for c in r] + [""] * (len(header) - len(r)) for r in data], for cells that are strings.  basics.py 383. *)
Definition data_rows (columns : nat) (data : list (list text)) : list (list text) :=
  map (fun r => r ++ repeat [] (columns - length r)) data.
(** Widths, or None for the ValueError of [max] of nothing, which needs a column but no rows.  basics.py 386-388. *)
Definition column_width (rows : list (list text)) (j : nat) : nat := list_max (map (fun r => length (nth j r [])) rows).
Definition widths (columns : nat) (rows : list (list text)) : option (list nat) :=
  match columns, rows with
  | S _, [] => None
  | _, _ => Some (map (column_width rows) (seq 0 columns))
  end.

(** What [{:^w}] makes of a string: spaces on both sides, one more on the right if their number is odd, if it is shorter than w.
    (For a width of zero, [{:^0}] makes 0 the fill character, of which there are none.) *)
Definition centered_in (w : nat) (s : text) : text :=
  let extra := w - length s in repeat blank (extra / 2) ++ s ++ repeat blank (extra - extra / 2).
(** The template is parts for columns, each followed by a vertical line if its index is among line_indices, that are joined by two
    spaces; [template.format( *row)] disregards cells after the last column.  basics.py 391, 399-402. *)
Fixpoint format_row (line_indices : list nat) (i : nat) (ws : list nat) (row : list text) : text :=
  match ws with
  | [] => []
  | w :: ws' =>
      centered_in w (hd [] row) ++ (if existsb (Nat.eqb i) line_indices then lit "  |" else []) ++
      match ws' with [] => [] | _ => lit "  " end ++ format_row line_indices (S i) ws' (tl row)
  end.
(** Lines of [format_table], before they are joined.  basics.py 394-406. *)
Definition format_lines (header : list label) (data : list (list text)) (title : option text) (include_border include_header : bool)
    (line_indices : list nat) : option (list text) :=
  let columns := length header in
  let hrows := header_rows header in
  let drows := data_rows columns data in
  match widths columns (hrows ++ drows) with
  | None => None
  | Some ws =>
      let template := format_row line_indices 0 ws in
      let border := if include_border then [repeat "="%char (length (template (map (fun _ => []) ws)))] else [] in
      Some (match title with Some t => [t ++ lit ":"] | None => [] end ++ border ++
            (if include_header then map template hrows ++ [template (map (repeat "-"%char) ws)] else []) ++
            map template drows ++ border)
  end.
(** ["\n".join(lines)] *)
Definition newline : ascii := ascii_of_nat 10.
Fixpoint join_lines (lines : list text) : text :=
  match lines with
  | [] => []
  | [l] => l
  | l :: lines' => l ++ newline :: join_lines lines'
  end.
Definition format_table header data title include_border include_header line_indices : option text :=
  option_map join_lines (format_lines header data title include_border include_header line_indices).
