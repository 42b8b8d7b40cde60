(** Absorption of fixed effects.  pyblp/configurations/formulation.py, pyblp/economies/problem.py and
    pyblp/results/problem_results.py.  Matrices have elements in any real field, and arithmetic is exact.  Definitions only. *)
Set Warnings "-notation-overridden,-ambiguous-paths".
From mathcomp Require Import all_ssreflect all_algebra.
From Verif Require Import StatsModel.
Set Implicit Arguments.
Unset Strict Implicit.
Unset Printing Implicit Defensive.
Import GRing.Theory Num.Theory.
Local Open Scope ring_scope.

Section Absorb.
  Context {F : realFieldType}.
  Variables (N : nat) (A : 'M[F]_N).

  (** [Absorb.__call__] if PyHDFE does not raise an exception.  PyHDFE is external: what it does to columns is a linear map, the
      matrix A.  formulation.py 288-294. *)
  Definition absorb C (M : 'M[F]_(N, C)) : 'M[F]_(N, C) := A *m M.

  (** Characteristics and instruments of a problem with fixed effects.  problem.py 2089-2105. *)
  Definition absorbed_X K (X : 'M[F]_(N, K)) : 'M[F]_(N, K) := absorb X.
  Definition absorbed_Z (add_exogenous : bool) M (Z : 'M[F]_(N, M)) : 'M[F]_(N, M) := if add_exogenous then absorb Z else Z.

  (** Contributions of L linear parameters in theta are subtracted from mean utilities with characteristics that do not exclude
      fixed effects, and what is left is absorbed.  problem.py 1366-1382.  With moments in levels; the supply side is the same. *)
  Definition iv_delta L (true_X : 'M[F]_(N, L)) (theta_beta : 'cV[F]_L) (delta : 'cV[F]_N) : 'cV[F]_N :=
    absorb (delta - true_X *m theta_beta).

  Section Estimates.
    Variables (K L M : nat) (X : 'M[F]_(N, K)) (theta_X : 'M[F]_(N, L)) (theta_beta : 'cV[F]_L) (delta : 'cV[F]_N).
    Variables (add_exogenous : bool) (Z : 'M[F]_(N, M)) (W : 'M[F]_M) (covariances : 'M[F]_K).
    (** What is inverted, concentrated-out parameters and structural errors.  problem.py 1394-1482. *)
    Definition absorbed_information : 'M[F]_K := iv_information (absorbed_X X) (absorbed_Z add_exogenous Z) W.
    Definition absorbed_beta : 'cV[F]_K :=
      iv_parameters (absorbed_X X) (absorbed_Z add_exogenous Z) W covariances (iv_delta theta_X theta_beta delta).
    Definition absorbed_xi : 'cV[F]_N := iv_delta theta_X theta_beta delta - absorbed_X X *m absorbed_beta.
    (** [xi_fe]: [_compute_true_X1] evaluates all columns without excluding fixed effects.  problem_results.py 421-427 and
        economy.py 384-397. *)
    Definition xi_fe : 'cV[F]_N := delta - row_mx X theta_X *m col_mx absorbed_beta theta_beta - absorbed_xi.
    (** Averages of moments, the objective without its factor N, and its gradient if derivatives of mean utilities are J.  Without
        covariance restrictions, derivatives are neither absorbed nor converted to those of structural errors.  problem.py
        1376-1379, 1521-1545. *)
    Definition absorbed_moments : 'cV[F]_M := N%:R^-1 *: ((absorbed_Z add_exogenous Z)^T *m absorbed_xi).
    Definition absorbed_objective : F := (absorbed_moments^T *m W *m absorbed_moments) 0 0.
    Definition absorbed_gradient P (J : 'M[F]_(N, P)) : 'cV[F]_P :=
      2%:R *: ((N%:R^-1 *: ((absorbed_Z add_exogenous Z)^T *m J))^T *m W *m absorbed_moments).
  End Estimates.
End Absorb.
