(** Vocabulary for statements about parameters. *)
From Coq Require Import List Bool Arith.
From Verif Require Import FltModel ParamsModel.
Import ListNotations.

(** Entries that parameters can refer to: all entries of each matrix, but only the lower triangle of sigma. *)
Definition is_entry (mat : kind -> matrix) (k : kind) (i j : nat) : Prop :=
  i < nrows (mat k) /\ j < ncols (mat k) /\ (k = Sigma -> j <= i).

(** Order of floating point numbers without NaN. *)
Definition within (l x u : flt) : Prop := fleb l x = true /\ fleb x u = true.
