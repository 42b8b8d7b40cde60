(** Specification of assembled results, independent of the model of the code. *)
From Coq Require Import Reals ZArith List Bool Arith.
Import ListNotations.

(** The within-market position of row i: the number of earlier rows of the same market. *)
Definition rank (ids : list Z) (i : nat) : nat := count_occ Z.eq_dec (firstn i ids) (nth i ids 0%Z).

(** Element (i, j) of a matrix given by its rows, if it has one. *)
Definition element {V} (a : list (list V)) (i j : nat) : option V := nth_error (nth i a []) j.
