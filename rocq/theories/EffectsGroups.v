(** Groups of rows that IDs define. *)
Set Warnings "-notation-overridden,-ambiguous-paths".
From Coq Require Import List ZArith.
From mathcomp Require Import all_ssreflect all_algebra.
Set Implicit Arguments.
Unset Strict Implicit.
Unset Printing Implicit Defensive.

(** Rows are in the same group if and only if they have the same ID. *)
Definition groups N G (ids : list (list Z)) (group : 'I_N -> 'I_G) : Prop :=
  forall n m : 'I_N, group n = group m <-> List.nth n ids nil = List.nth m ids nil.
