(** What is left of nests. *)
From Coq Require Import Reals List Bool Arith.
From Verif Require Import Base.
Local Open Scope R_scope.

(** What is left of the probability s of a nest with parameter r if products with probability c are eliminated from it, relative to the probability of everything before. *)
Definition left_of_nest (s c r : R) : R := if Rlt_dec c s then s * Rpower ((s - c) / s) (1 - r) else 0.
(** The probability of choosing a product in nest h that is marked. *)
Definition in_nest (J : nat) (nest : nat -> nat) (h : nat) (mask : nat -> bool) (p : nat -> R) : R := sumn J (fun j => if Nat.eqb (nest j) h then if mask j then p j else 0 else 0).
