(** What products are chosen and worth. *)
From Coq Require Import Reals List Bool Arith.
From Verif Require Import Base.
Local Open Scope R_scope.

(** The probability that one of the marked products is chosen. *)
Definition chosen (J : nat) (mask : nat -> bool) (p : nat -> R) : R := sumn J (fun j => if mask j then p j else 0).

(** All products of a nest are marked, or none. *)
Definition whole_nests (J : nat) (nest : nat -> nat) (mask : nat -> bool) : Prop :=
  forall j k, (j < J)%nat -> (k < J)%nat -> nest j = nest k -> mask j = mask k.
