(** Model of expected prices by default without a supply side: fitted values from a regression on demand-side instruments.
    Source: /repo/pyblp/results/problem_results.py 1481-1490.  Matrices have elements in any real field, and arithmetic is
    exact.  Definitions only. *)
Set Warnings "-notation-overridden,-ambiguous-paths".
From mathcomp Require Import all_ssreflect all_algebra.
From Verif Require Import AbsorbModel.
Set Implicit Arguments.
Unset Strict Implicit.
Unset Printing Implicit Defensive.
Import GRing.Theory Num.Theory.
Local Open Scope ring_scope.

Section Fitted.
  Context {F : realFieldType}.
  (** A absorbs demand-side fixed effects; [None] if there are none.  ZD are instruments as they are in the problem. *)
  Variables (N M : nat) (A : option 'M[F]_N) (ZD : 'M[F]_(N, M)) (prices : 'cV[F]_N).
  Definition regressed_prices : 'cV[F]_N := match A with Some a => absorb a prices | None => prices end.
  (** The system that [approximately_solve] is given. *)
  Definition fit_covariances : 'M[F]_M := ZD^T *m ZD.
  Definition fit_covariates : 'cV[F]_M := ZD^T *m regressed_prices.
  Definition fitted_prices (parameters : 'cV[F]_M) : 'cV[F]_N := ZD *m parameters + prices - regressed_prices.
End Fitted.
