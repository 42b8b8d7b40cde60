(** What it means for arguments to be used as documented. *)
From Coq Require Import List String Arith.
Import ListNotations.

(** One string is part of another. *)
Definition part_of (p t : string) : Prop := exists a b, t = (a ++ p ++ b)%string.

(** The same IDs are listed, in whatever order and however often. *)
Definition same_items {A} (l l' : list A) : Prop := forall a, In a l <-> In a l'.

(** Shapes of arrays that have the same elements in the same order but for axes of length one at the end, or of one row. *)
Definition read_as (draws rows columns : nat) (shape : list nat) : Prop :=
  shape = [draws; rows; columns] \/ (columns = 1%nat /\ shape = [draws; rows]) \/ (columns = 1%nat /\ draws = 1%nat /\ shape = [rows]) \/
  (columns = 1%nat /\ draws = 1%nat /\ rows = 1%nat /\ shape = []).
