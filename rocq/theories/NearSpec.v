(** Exact nested logit probabilities and expected maximum utilities, with one nesting parameter and from utilities that have
    been divided by one minus it. *)
From Coq Require Import Reals List Bool Arith.
From Verif Require Import Base.
Local Open Scope R_scope.

Section Exact.
  Variables (J H : nat) (group : nat -> nat) (rho : R) (u : nat -> R).
  Definition inclusive_sum (h : nat) : R := sumn J (fun k => if Nat.eqb (group k) h then exp (u k) else 0).
  Definition powered_sum (h : nat) : R := exp ((1 - rho) * ln (inclusive_sum h)).
  Definition exact_within (j : nat) : R := exp (u j) / inclusive_sum (group j).
  Definition exact_group (h : nat) : R := powered_sum h / (1 + sumn H powered_sum).
  Definition exact_probability (j : nat) : R := exact_within j * exact_group (group j).
  Definition exact_maximum : R := ln (1 + sumn H powered_sum).
End Exact.

(** The same from utilities. *)
Definition divided (rho : R) (v : nat -> R) : nat -> R := fun k => v k / (1 - rho).
