(** Vocabulary for statements about efficiency and about tests of restrictions. *)
Set Warnings "-notation-overridden,-ambiguous-paths".
From mathcomp Require Import all_ssreflect all_algebra.
From Verif Require Import StatsSpec.
Set Implicit Arguments.
Unset Strict Implicit.
Unset Printing Implicit Defensive.
Import GRing.Theory Num.Theory.
Local Open Scope ring_scope.

Section Spec.
  Context {F : realFieldType}.
  (** One matrix of covariances is at least as large as another: no linear combination of parameters has a smaller variance. *)
  Definition at_least n (A B : 'M[F]_n) : Prop := forall x : 'cV[F]_n, quadratic B x <= quadratic A x.
  (** Expected Jacobians and covariances of N moments of E equations each, with instruments Z, errors that have covariances
      Omega given instruments, and Jacobians J of errors. *)
  Definition summed_jacobian N E P M (J : 'I_N -> 'M[F]_(E, P)) (Z : 'I_N -> 'M[F]_(E, M)) : 'M[F]_(M, P) := \sum_n (Z n)^T *m J n.
  Definition summed_covariances N E M (Omega : 'M[F]_E) (Z : 'I_N -> 'M[F]_(E, M)) : 'M[F]_M := \sum_n (Z n)^T *m Omega *m Z n.
  (** b minimises f among parameters that satisfy restrictions R b = q. *)
  Definition restricted_minimiser K Q (R : 'M[F]_(Q, K)) (q : 'cV[F]_Q) (f : 'cV[F]_K -> F) (b : 'cV[F]_K) : Prop :=
    R *m b = q /\ forall b', R *m b' = q -> f b <= f b'.
End Spec.
