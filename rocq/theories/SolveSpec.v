(** Two-stage least squares and second-order conditions under bounds. *)
Set Warnings "-notation-overridden,-ambiguous-paths".
From mathcomp Require Import all_ssreflect all_algebra.
Set Implicit Arguments.
Unset Strict Implicit.
Unset Printing Implicit Defensive.
Import GRing.Theory Num.Theory.
Local Open Scope ring_scope.

Section Spec.
  Context {F : realFieldType}.
  (** Coefficients of a regression by least squares: residuals are orthogonal to regressors. *)
  Definition least_squares N K D (X : 'M[F]_(N, K)) (y : 'M[F]_(N, D)) (b : 'M[F]_(K, D)) : Prop := X^T *m (y - X *m b) = 0.
  (** Two-stage least squares: the regression of y on what is fitted by a regression of X on Z. *)
  Definition two_stage N K M (X : 'M[F]_(N, K)) (Z : 'M[F]_(N, M)) (y : 'cV[F]_N) (b : 'cV[F]_K) : Prop :=
    exists2 fit : 'M[F]_(M, K), least_squares Z X fit & least_squares (Z *m fit) y b.
  (** Parameters strictly between their bounds. *)
  Definition interior (lb ub : option F) (theta : F) : Prop :=
    (forall l, lb = Some l -> l < theta) /\ (forall u, ub = Some u -> theta < u).
  (** Directions in which only such parameters change. *)
  Definition free_direction P (lb ub : 'I_P -> option F) (theta w : 'cV[F]_P) : Prop :=
    forall p, ~ interior (lb p) (ub p) (theta p 0) -> w p 0 = 0.
  Definition curvature P (A : 'M[F]_P) (w : 'cV[F]_P) : F := (w^T *m A *m w) 0 0.
End Spec.
