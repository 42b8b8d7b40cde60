(** What it means that only one firm acquires others. *)
From Coq Require Import Reals ZArith List Arith.
From Verif Require Import Base.
Local Open Scope R_scope.

(** Products that the firm of product j does not sell afterwards are sold by the same firms as before. *)
Definition only_merger (J : nat) (before after : list Z) (j : nat) : Prop :=
  forall k l, (k < J)%nat -> (l < J)%nat -> nth k after 0%Z <> nth j after 0%Z ->
    nth k after 0%Z = nth l after 0%Z -> nth k before 0%Z = nth l before 0%Z.
