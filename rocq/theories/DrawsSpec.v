(** Vocabulary for statements about loaded and simulated variables. *)
From Coq Require Import Reals List Bool Arith.
Import ListNotations.

(** An order by which names can be sorted. *)
Definition total_order {A} (leb : A -> A -> bool) : Prop :=
  (forall x y, leb x y = true \/ leb y x = true) /\ (forall x y z, leb x y = true -> leb y z = true -> leb x z = true) /\
  (forall x y, leb x y = true -> leb y x = true -> x = y).
(** Block k of n random numbers. *)
Definition block (stream : nat -> R) (n k : nat) : nat -> R := fun i => stream (k * n + i).
(** The sum of a column over the products of a market. *)
Definition market_total (market : nat -> nat) (N t : nat) (c : nat -> R) : R :=
  fold_right Rplus 0%R (map c (filter (fun i => Nat.eqb (market i) t) (seq 0 N))).
Definition market_size (market : nat -> nat) (N t : nat) : nat := length (filter (fun i => Nat.eqb (market i) t) (seq 0 N)).
