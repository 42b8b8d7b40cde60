(** Reading displayed information. *)
From Coq Require Import Ascii String List Arith Bool.
From Verif Require Import TableModel.
Import ListNotations.

Definition same_text (a b : text) : bool := if list_eq_dec ascii_dec a b then true else false.
(** The column with a label. *)
Fixpoint column (header : list text) (l : text) : option nat :=
  match header with [] => None | h :: t => if same_text h l then Some 0 else option_map S (column t l) end.
(** The cell in a row beneath a label. *)
Definition beneath (header row : list text) (l : text) : option text :=
  match column header l with Some j => nth_error row j | None => None end.
(** Rows in blocks, each of which starts with a row whose first cell is not blank. *)
Fixpoint blocks (rows : list (list text)) : list (list (list text)) :=
  match rows with
  | [] => []
  | r :: rest => let continued := match rest with (([] :: _) :: _) => true | _ => false end in
      match continued, blocks rest with true, b :: bs => (r :: b) :: bs | _, bs => [r] :: bs end
  end.
