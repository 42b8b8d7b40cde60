(** Tests of restrictions of [ProblemResults], pyblp/results/problem_results.py, with matrices.
    (ResultsModel.v has the same statistics over real-valued arrays; the Wald statistic is in StatsModel.v.) *)
Set Warnings "-notation-overridden,-ambiguous-paths".
From mathcomp Require Import all_ssreflect all_algebra.
Set Implicit Arguments.
Unset Strict Implicit.
Unset Printing Implicit Defensive.
Import GRing.Theory Num.Theory.
Local Open Scope ring_scope.

Section Model.
  Context {F : realFieldType}.
  (** The GMM objective from averaged moments and a weighting matrix, scaled by the number of observations or not.
      pyblp/economies/problem.py 1525-1528. *)
  Definition gmm_objective M (scaled : bool) (N : nat) (W : 'M[F]_M) (g : 'cV[F]_M) : F :=
    let q := (g^T *m W *m g) 0 0 in if scaled then q * N%:R else q.
  (** [run_distance_test] for problems with the same number of observations.  problem_results.py 1018-1020. *)
  Definition distance_statistic (N : nat) (scaled : bool) (objective : F) (unrestricted_scaled : bool) (unrestricted_objective : F) : F :=
    (if scaled then 1 else N%:R) * objective - (if unrestricted_scaled then 1 else N%:R) * unrestricted_objective.
  (** [run_lm_test].  problem_results.py 1050-1051. *)
  Definition lm_statistic M P (N : nat) (W : 'M[F]_M) (g : 'cV[F]_M) (G : 'M[F]_(M, P)) (V : 'M[F]_P) : F :=
    let gradient := G^T *m W *m g in N%:R * (gradient^T *m V *m gradient) 0 0.
  (** [ProblemResults.moments] and [ProblemResults.moments_jacobian] of a problem that has only linear demand-side
      parameters, all of which are concentrated out.  problem.py 1508-1511, problem_results.py 649-653, 696-698,
      statistics.py 152-166.  (Simplified: one equation, so stacking does nothing.) *)
  Definition linear_moments N K M (X : 'M[F]_(N, K)) (Z : 'M[F]_(N, M)) (y : 'cV[F]_N) (b : 'cV[F]_K) : 'cV[F]_M :=
    N%:R^-1 *: (Z^T *m (y - X *m b)).
  Definition linear_jacobian N K M (X : 'M[F]_(N, K)) (Z : 'M[F]_(N, M)) : 'M[F]_(M, K) := N%:R^-1 *: (Z^T *m (- X)).
End Model.
