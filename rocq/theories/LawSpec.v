(** The law of demand and revealed preference, independent of the model of the code. *)
From Coq Require Import Reals Arith.
From Verif Require Import Base.
Local Open Scope R_scope.

(** Utility falls at the constant rate a in a product's own price, the same rate for every product. *)
Definition quasilinear (J : nat) (V : (nat -> R) -> nat -> R) (a : R) : Prop :=
  forall x x' j, (j < J)%nat -> V x' j - V x j = - a * (x' j - x j).

(** What buying the quantities q costs more at prices x' than at prices x. *)
Definition extra_cost (J : nat) (q x x' : nat -> R) : R := sumn J (fun j => q j * (x' j - x j)).

(** On average, quantities move against prices: the inner product of the two changes is not positive. *)
Definition obeys_law (J : nat) (demand : (nat -> R) -> nat -> R) : Prop :=
  forall x x', sumn J (fun j => (x' j - x j) * (demand x' j - demand x j)) <= 0.

(** The same, and it is negative unless no price has changed. *)
Definition obeys_law_strictly (J : nat) (demand : (nat -> R) -> nat -> R) : Prop :=
  forall x x', (exists j, (j < J)%nat /\ x' j <> x j) ->
    sumn J (fun j => (x' j - x j) * (demand x' j - demand x j)) < 0.

(** Quadratic form of a matrix. *)
Definition quadratic (J : nat) (A : nat -> nat -> R) (v : nat -> R) : R :=
  sumn J (fun j => sumn J (fun k => v j * A j k * v k)).
