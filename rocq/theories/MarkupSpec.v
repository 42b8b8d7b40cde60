(** What theorems about implied markups are about. *)
From Coq Require Import Reals Bool Arith.
Local Open Scope R_scope.

(** Firms internalize at least as much of others' profits. *)
Definition less_competition (J : nat) (O O' : nat -> nat -> R) : Prop :=
  forall j k, (j < J)%nat -> (k < J)%nat -> O j k <= O' j k.

(** The firm that sells product j internalizes no other product's profits. *)
Definition alone (J : nat) (O : nat -> nat -> R) (j : nat) : Prop :=
  forall k, (k < J)%nat -> k <> j -> O j k = 0.
