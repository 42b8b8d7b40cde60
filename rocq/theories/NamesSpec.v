(** IDs under other names. *)
From Coq Require Import ZArith List Arith.
Import ListNotations.

(** The same rows have the same IDs. *)
Definition alike (a b : list Z) : Prop :=
  length a = length b /\ forall n m, n < length a -> m < length a -> (nth n a 0%Z = nth m a 0%Z <-> nth n b 0%Z = nth m b 0%Z).
(** For IDs of N rows that are given by functions. *)
Definition alike_below (N : nat) (a b : nat -> nat) : Prop := forall n m, n < N -> m < N -> (a n = a m <-> b n = b m).
(** IDs in two kinds of data, like those of markets in product data and in agent data. *)
Definition alike_across (a a' b b' : list Z) : Prop :=
  length a = length b /\ length a' = length b' /\
  forall n m, n < length a -> m < length a' -> (nth n a 0%Z = nth m a' 0%Z <-> nth n b 0%Z = nth m b' 0%Z).
