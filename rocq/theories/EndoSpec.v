(** What it means to recover the structural errors that data were simulated with. *)
From Coq Require Import Reals List Bool Arith.
From Verif Require Import Base.
Local Open Scope R_scope.

(** Only the zero vector is sent to zero, so that linear systems have at most one solution. *)
Definition nonsingular (J : nat) (A : nat -> nat -> R) : Prop :=
  forall v, (forall j, (j < J)%nat -> sumn J (fun k => A j k * v k) = 0) -> forall j, (j < J)%nat -> v j = 0.

(** Ownership with ones on the diagonal and cooperation between zero and one elsewhere. *)
Definition cooperation (J : nat) (O : nat -> nat -> R) : Prop :=
  (forall j, (j < J)%nat -> O j j = 1) /\
  (forall j k, (j < J)%nat -> (k < J)%nat -> 0 <= O j k <= 1).

(** The total profits of firm f. *)
Definition firm_profit (J : nat) (firm : nat -> nat) (costs : nat -> R) (s : (nat -> R) -> nat -> R)
    (f : nat) (p : nat -> R) : R :=
  sumn J (fun j => if Nat.eqb (firm j) f then (p j - costs j) * s p j else 0).

Definition owns (firm : nat -> nat) (j k : nat) : R := if Nat.eqb (firm j) (firm k) then 1 else 0.
