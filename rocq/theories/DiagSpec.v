(** What effective numbers of draws mean. *)
From Coq Require Import Reals List Arith.
From Verif Require Import Base.
Local Open Scope R_scope.

(** Expectation over finitely many states. *)
Definition expected (states : nat) (q : nat -> R) (f : nat -> R) : R := sumn states (fun s => q s * f s).
(** Variables with a common mean and variance that are not correlated with each other. *)
Definition uncorrelated (n states : nat) (q : nat -> R) (y : nat -> nat -> R) (mu v : R) : Prop :=
  (forall i, (i < n)%nat -> expected states q (y i) = mu) /\
  (forall i j, (i < n)%nat -> (j < n)%nat -> expected states q (fun s => (y i s - mu) * (y j s - mu)) = if Nat.eqb i j then v else 0).
(** All numbers in a list are the same. *)
Definition all_same (l : list R) : Prop := forall x y, In x l -> In y l -> x = y.
(** Variables whose deviations from their mean have third moment [t] by themselves and none with each other. *)
Definition third_moments (n states : nat) (q : nat -> R) (y : nat -> nat -> R) (mu t : R) : Prop :=
  forall i j k, (i < n)%nat -> (j < n)%nat -> (k < n)%nat ->
    expected states q (fun s => (y i s - mu) * (y j s - mu) * (y k s - mu)) = if (Nat.eqb i j && Nat.eqb j k)%bool then t else 0.
