(** Information about problems as it is displayed: dimensions, formulations and micro moments.  Cells before they are put into a table,
    which is [format_table] of TableModel.  pyblp/economies/economy.py 159-192, pyblp/micro.py 170-173 and 436-470.  Definitions only. *)
From Coq Require Import Ascii String Reals List Arith Bool.
From Verif Require Import FltModel TableModel FormatModel DisplayModel.
Import ListNotations.

(** Names of attributes in the order in which they are displayed.  economy.py 167. *)
Definition dimension_keys : list text :=
  map lit ["T"; "N"; "F"; "I"; "K1"; "K2"; "K3"; "D"; "MD"; "MS"; "MC"; "ED"; "ES"; "H"]%string.
(** [f" {key} "].  economy.py 170, 191. *)
Definition spaced (s : text) : text := lit " " ++ s ++ lit " ".
(** Header and row of the table of dimensions.  economy.py 163-173. *)
Definition dimensions_table (attribute : text -> nat) : list text * list text :=
  let shown := filter (fun k => 0 <? attribute k) dimension_keys in
  (map spaced shown, map (fun k => number_of (attribute k)) shown).

(** [self.costs_type.title()] for the two types that there are.  economy.py 182. *)
Inductive costs := LinearCosts | LogCosts.
Definition costs_title (c : costs) : text := match c with LinearCosts => lit "Linear" | LogCosts => lit "Log" end.
(** Header and rows of the table of formulations, or None for the ValueError of [max] of nothing.  Formulations are their strings; they are
    objects, which are true, so there are any when there is one.  economy.py 175-192. *)
Definition named_formulations (x1 x2 x3 d : list text) (c : costs) : list (list text * text) :=
  [(x1, lit "X1: Linear Characteristics"); (x2, lit "X2: Nonlinear Characteristics");
   (x3, lit "X3: " ++ costs_title c ++ lit " Cost Characteristics"); (d, lit "d: Demographics")].
Definition formulation_rows (named : list (list text * text)) : list (list text) :=
  flat_map (fun fn => match fst fn with [] => [] | _ => [snd fn :: fst fn] end) named.
Definition formulations_table (x1 x2 x3 d : list text) (c : costs) : option (list text * list (list text)) :=
  let data := formulation_rows (named_formulations x1 x2 x3 d c) in
  match data with
  | [] => None
  | _ => Some (lit "Column Indices:" :: map (fun i => spaced (number_of i)) (seq 0 (list_max (map (fun r => length (tl r)) data))), data)
  end.

(** What is displayed of datasets, parts and moments.  A moment has at least one part (micro.py 340-341 refuses others). *)
Record dataset := mk_dataset { dataset_name : text; observations : nat; market_count : option nat }.
Record part := mk_part { part_name : text; part_dataset : dataset }.
Record moment := mk_moment { moment_name : text; moment_value : R; first_part : part; other_parts : list part }.
(** [_format_markets()].  micro.py 170-173. *)
Definition format_markets (d : dataset) : text := match market_count d with None => lit "All" | Some n => number_of n end.
Definition part_cells (p : part) : list text :=
  [part_name p; dataset_name (part_dataset p); number_of (observations (part_dataset p)); format_markets (part_dataset p)].
(** Header.  micro.py 438-441. *)
Definition micro_header (estimated : bool) : list text :=
  map lit ((["Observed"] ++ (if estimated then ["Estimated"; "Difference"] else []) ++ ["Moment"; "Part"; "Dataset"; "Observations"; "Markets"])%list)%string.
(** Rows of a moment, with or without its estimated value.  micro.py 444-468. *)
Definition moment_rows (digits : nat) (m : moment) (estimate : option flt) : list (list text) :=
  ([format_number digits (Num (moment_value m))] ++
   match estimate with Some v => [format_number digits v; format_number digits (fsub (Num (moment_value m)) v)] | None => [] end ++
   [moment_name m] ++ part_cells (first_part m)) ::
  map (fun p => [[]] ++ match estimate with Some _ => [[]; []] | None => [] end ++ [[]] ++ part_cells p) (other_parts m).
(** [values[m]] is of estimates that there are as many of as moments. *)
Definition micro_table (digits : nat) (moments : list moment) (values : option (list flt)) : list text * list (list text) :=
  (micro_header (match values with Some _ => true | None => false end),
   flat_map (fun im => moment_rows digits (snd im) (match values with Some v => Some (nth (fst im) v NaN) | None => None end))
     (combine (seq 0 (length moments)) moments)).
