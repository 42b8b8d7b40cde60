(** Data in which each row occurs several times. *)
From mathcomp Require Import all_ssreflect all_algebra.
Set Implicit Arguments.
Unset Strict Implicit.
Unset Printing Implicit Defensive.
Local Open Scope ring_scope.

(** Row n of the new data is copy number (copy n) of row (original n), and each of the rows has k copies. *)
Definition copies (k N N' : nat) (original : 'I_N' -> 'I_N) (copy : 'I_N' -> 'I_k) : Prop :=
  bijective (fun n : 'I_N' => (original n, copy n)).
(** Rows of a matrix, copied. *)
Definition copied (F : Type) (N N' K : nat) (original : 'I_N' -> 'I_N) (A : 'M[F]_(N, K)) : 'M[F]_(N', K) :=
  \matrix_(n, i) A (original n) i.
