(** Fitted values of a regression of y on columns of X, which may be collinear. *)
Set Warnings "-notation-overridden,-ambiguous-paths".
From mathcomp Require Import all_ssreflect all_algebra.
Set Implicit Arguments.
Unset Strict Implicit.
Unset Printing Implicit Defensive.
Import GRing.Theory Num.Theory.
Local Open Scope ring_scope.

Definition fitted_values (F : realFieldType) N K (X : 'M[F]_(N, K)) (y fit : 'cV[F]_N) : Prop :=
  (exists c, fit = X *m c) /\ X^T *m (y - fit) = 0.
