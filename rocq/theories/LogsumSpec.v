(** What exact surpluses are, before dividing by derivatives, and what is assumed about logarithms. *)
From Coq Require Import Reals List Bool Arith.
From Verif Require Import Base FltModel RoundModel.
Local Open Scope R_scope.

(** The expected maximum utility of a logit choice from the outside option and included products. *)
Definition expected_maximum (J : nat) (included : nat -> bool) (v : nat -> R) : R :=
  ln (1 + sumn J (fun k => if included k then exp (v k) else 0)).

(** Of a nested logit choice, from utilities that are not scaled. *)
Definition nested_maximum (J H : nat) (group : nat -> nat) (rho : nat -> R) (v : nat -> R) : R :=
  ln (1 + sumn H (fun h => exp ((1 - rho h) * ln (sumn J (fun k => if Nat.eqb (group k) h then exp (v k / (1 - rho h)) else 0))))).

(** Logarithms have relative errors of at most eps. *)
Definition log_accurate (A : arithmetic) (eps : R) : Prop := forall x, 0 < x -> Rabs (Log A x - ln x) <= eps * Rabs (ln x).

(** A number between zero and n. *)
Definition between (n : nat) (x : flt) : Prop := exists r, x = Num r /\ 0 <= r <= INR n.

(** Among the outside option and included products is one with the highest utility of all products. *)
Definition best_remains (J : nat) (included : nat -> bool) (v : nat -> R) : Prop :=
  (forall k, (k < J)%nat -> v k <= 0) \/
  (exists k, (k < J)%nat /\ included k = true /\ 0 <= v k /\ forall i, (i < J)%nat -> v i <= v k).
