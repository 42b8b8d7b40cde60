(** Tables: how to read them. *)
From Coq Require Import Ascii String List Arith Bool.
From Verif Require Import TableModel.
Import ListNotations.

(** Lines of a text. *)
Fixpoint lines_of (s : text) : list text :=
  match s with
  | [] => [[]]
  | x :: s' => if Ascii.eqb x newline then [] :: lines_of s'
               else match lines_of s' with l :: r => (x :: l) :: r | [] => [[x]] end
  end.
(** What is above each run of dashes, when a line of text is above a line with dashes. *)
Fixpoint above (above_run : option text) (dashes line : text) {struct dashes} : list text :=
  match dashes, line with
  | d :: dashes', x :: line' =>
      if Ascii.eqb d "-"%char then above (Some (match above_run with Some s => s ++ [x] | None => [x] end)) dashes' line'
      else match above_run with Some s => [s] | None => [] end ++ above None dashes' line'
  | _, _ => match above_run with Some s => [s] | None => [] end
  end.
(** Text without surrounding spaces. *)
Fixpoint strip_left (s : text) : text := match s with x :: s' => if Ascii.eqb x blank then strip_left s' else s | [] => [] end.
Definition strip (s : text) : text := rev (strip_left (rev (strip_left s))).
Definition read_row (dashes line : text) : list text := map strip (above None dashes line).
(** Cells without surrounding spaces. *)
Definition stripped (row : list text) : list text := map strip row.

(** Strings that are on one line. *)
Definition on_one_line (s : text) : Prop := ~ In newline s.
(** A header without gaps: in each of its lines, before they end, there is a label. *)
Definition label_height (header : list label) : nat := list_max (map (@length text) header).
Definition without_gaps (header : list label) : Prop :=
  forall r, 1 <= r <= label_height header -> exists c, In c header /\ r <= length c /\ nth (length c - r) c [] <> [].
(** A column of cells. *)
Definition column_of (j : nat) (rows : list (list text)) : list text := map (fun r => nth j r []) rows.
(** A row with as many cells as there are columns: missing ones are empty. *)
Definition fitted (columns : nat) (row : list text) : list text := firstn columns (row ++ repeat [] columns).
(** Cells of a column are not all empty. *)
Definition used (j : nat) (rows : list (list text)) : Prop := exists r, In r rows /\ nth j r [] <> [].
