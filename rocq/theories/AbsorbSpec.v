(** What it means to absorb fixed effects. *)
Set Warnings "-notation-overridden,-ambiguous-paths".
From mathcomp Require Import all_ssreflect all_algebra.
Set Implicit Arguments.
Unset Strict Implicit.
Unset Printing Implicit Defensive.
Import GRing.Theory Num.Theory.
Local Open Scope ring_scope.

Section Spec.
  Context {F : realFieldType}.
  (** A gives residuals of regressions on columns of D, which may be collinear: what it removes are combinations of these columns, and
      what it leaves is orthogonal to them. *)
  Definition residualizes N E (A : 'M[F]_N) (D : 'M[F]_(N, E)) : Prop :=
    (exists B : 'M[F]_(E, N), forall y : 'cV[F]_N, y - A *m y = D *m (B *m y)) /\ (forall y : 'cV[F]_N, D^T *m (A *m y) = 0).
  (** The slope of a function that is quadratic along a direction h. *)
  Definition slope N (f : 'cV[F]_N -> F) (x h : 'cV[F]_N) (s : F) : Prop :=
    exists c, forall t, f (x + t *: h) = f x + t * s + t ^+ 2 * c.
End Spec.
(** Indicators for G groups. *)
Definition indicators (F : realFieldType) N G (group : 'I_N -> 'I_G) : 'M[F]_(N, G) := \matrix_(n, g) (group n == g)%:R.
(** Deviations from averages of groups. *)
Definition demeaning (F : realFieldType) N G (group : 'I_N -> 'I_G) : 'M[F]_N :=
  \matrix_(n, m) ((n == m)%:R - (group m == group n)%:R / #|[pred k | group k == group n]|%:R).
