(** What summaries should tell, in terms of what they summarize. *)
From Coq Require Import Ascii String Reals List Arith Bool.
From Verif Require Import FltModel TableModel.
Import ListNotations.
Local Open Scope R_scope.

(** Numbers that may be infinite compared with real numbers; NaN is not comparable. *)
Definition at_most (x : flt) (c : R) : Prop := match x with Num a => a <= c | NInf => True | _ => False end.
Definition at_least (x : flt) (c : R) : Prop := match x with Num a => c <= a | PInf => True | _ => False end.

(** Arrays of firms in markets. *)
Definition of_firm (l : list (list fvec)) (v : fvec) : Prop := exists market, In market l /\ In v market.
Definition all_finite (l : list (list fvec)) : Prop := forall v, of_firm l v -> vfin v = true.
(** Either all elements of an array could be computed or none. *)
Definition all_or_none (l : list (list fvec)) : Prop := forall v, of_firm l v -> vfin v = true \/ existsb ffin v = false.

(** What a table with one row displays below a label. *)
Definition same_label (a b : list text) : bool := if list_eq_dec (list_eq_dec ascii_dec) a b then true else false.
Fixpoint shown (h : list text) (header : list (list text)) (cells : list text) : option text :=
  match header, cells with
  | a :: header', c :: cells' => if same_label h a then Some c else shown h header' cells'
  | _, _ => None
  end.
