(** Statistics: linear GMM estimation, weighting matrices, covariances of moments and parameters, sensitivity and the
    Wald statistic.  pyblp/utilities/statistics.py, pyblp/utilities/algebra.py and pyblp/results/problem_results.py.
    Matrices have elements in any real field, and arithmetic is exact.  Definitions only. *)
Set Warnings "-notation-overridden,-ambiguous-paths".
From mathcomp Require Import all_ssreflect all_algebra.
Set Implicit Arguments.
Unset Strict Implicit.
Unset Printing Implicit Defensive.
Import GRing.Theory Num.Theory.
Local Open Scope ring_scope.

(* ---------- Approximate inversion ---------- *)

(** What an inversion method does: it returns a matrix, or raises a ValueError (which scipy.linalg does for NaN), a
    LinAlgError or LinAlgWarning, or something else, such as a RuntimeWarning for a division by zero. *)
Inductive outcome (A : Type) := Returned (a : A) | RaisedValueError | RaisedLinAlg | RaisedOther.
Arguments RaisedValueError {A}. Arguments RaisedLinAlg {A}. Arguments RaisedOther {A}.

(** Methods that can be used in place of the inverse, and what is told about a replacement. *)
Inductive replacement := PseudoInverse | InvertedDiagonal | NullValues.
(** [approximately_invert] for a nonempty matrix, given what its three methods do with it.  algebra.py 147-177.
    None: another exception was raised.  NaN is a matrix full of NaN. *)
Section Invert.
  Variable A : Type.
  Variables (inv pinv diagonal : outcome A) (nan : A) (pseudo_inverses : bool).
  Definition methods : seq (outcome A * option replacement) :=
    (if pseudo_inverses then [:: (pinv, None)] else [:: (inv, None); (pinv, Some PseudoInverse)])
    ++ [:: (diagonal, Some InvertedDiagonal)].
  (** The loop over methods: its variable [replacement] is what the last one that was tried says. *)
  Fixpoint try_methods (l : seq (outcome A * option replacement)) (last : option replacement) : option (A * option replacement) :=
    match l with
    | [::] => Some (nan, last)
    | (m, r) :: l' =>
        match m with
        | Returned a => Some (a, None)
        | RaisedValueError => Some (nan, Some NullValues)
        | RaisedLinAlg => try_methods l' r
        | RaisedOther => None
        end
    end.
  Definition approximately_invert : option (A * option replacement) := try_methods methods None.
End Invert.

(** [approximately_solve]: any exception leads to approximate inversion.  algebra.py 133-144. *)
Definition approximately_solve {A B} (solve : outcome B) (inverted : option (A * option replacement)) (times : A -> B)
    : option (B * option replacement) :=
  match solve with
  | Returned x => Some (x, None)
  | _ => match inverted with Some (a, r) => Some (times a, r) | None => None end
  end.

Section Stats.
  Context {F : realFieldType}.
  Implicit Types (E N K M P : nat).

  (** Averages over N observations. *)
  Definition over (N : nat) : F := N%:R^-1.
  (** [np.c_[x + x.T] / 2] *)
  Definition symmetrised n (A : 'M[F]_n) : 'M[F]_n := 2%:R^-1 *: (A + A^T).

  (* ---------- Instrumental variables ---------- *)

  (** [scipy.linalg.block_diag] of instruments of E equations, each with N rows. *)
  Definition block_diag E N (q : 'I_E -> nat) (Z : forall e, 'M[F]_(N, q e)) : 'M[F]_(\sum_(e < E) N, \sum_e q e) :=
    \mxblock_(e, f) (if e == f then Z f else 0).

  Section IV.
    Variables (R K M : nat) (X : 'M[F]_(R, K)) (Z : 'M[F]_(R, M)) (W : 'M[F]_M).
    (** What [IV] inverts.  statistics.py 27-29. *)
    Definition iv_information : 'M[F]_K := (Z^T *m X)^T *m W *m (Z^T *m X).
    (** [IV.estimate] given the inverse.  statistics.py 53-65. *)
    Definition iv_parameters C (covariances : 'M[F]_K) (y : 'M[F]_(R, C)) : 'M[F]_(K, C) :=
      covariances *m (X^T *m Z) *m W *m (Z^T *m y).
    Definition iv_residuals (covariances : 'M[F]_K) (y : 'cV[F]_R) : 'cV[F]_R := y - X *m iv_parameters covariances y.
    Definition iv_convert P (covariances : 'M[F]_K) (jacobian : 'M[F]_(R, P)) : 'M[F]_(R, P) :=
      jacobian - X *m (covariances *m ((X^T *m Z) *m (W *m (Z^T *m jacobian)))).
  End IV.

  (** The estimator for E stacked equations, and its residuals for equation e.  statistics.py 22-24, 47-58. *)
  Definition stacked_parameters E N K (q : 'I_E -> nat) (X : forall e : 'I_E, 'M[F]_(N, K)) (Z : forall e, 'M[F]_(N, q e))
      (W : 'M[F]_(\sum_e q e)) (covariances : 'M[F]_K) (y : forall e : 'I_E, 'cV[F]_N) : 'cV[F]_K :=
    iv_parameters (\mxcol_e X e) (block_diag Z) W covariances (\mxcol_e y e).
  Definition stacked_residuals E N K (q : 'I_E -> nat) (X : forall e : 'I_E, 'M[F]_(N, K)) (Z : forall e, 'M[F]_(N, q e))
      (W : 'M[F]_(\sum_e q e)) (covariances : 'M[F]_K) (y : forall e : 'I_E, 'cV[F]_N) (e : 'I_E) : 'cV[F]_N :=
    submxcol (iv_residuals (\mxcol_e X e) (block_diag Z) W covariances (\mxcol_e y e)) e.

  (* ---------- Moments and their covariances ---------- *)

  (** [u * Z] for each equation, side by side.  statistics.py 152-154. *)
  Definition gmm_moments E N (q : 'I_E -> nat) (u : 'I_E -> 'cV[F]_N) (Z : forall e, 'M[F]_(N, q e)) : 'M[F]_(N, \sum_e q e) :=
    \mxrow_e (\matrix_(n, i) (u e n 0 * Z e n i)).
  (** Averages of columns, as a column.  statistics.py 157-159. *)
  Definition column_mean N M (g : 'M[F]_(N, M)) : 'cV[F]_M := \col_i (over N * \sum_n g n i).
  (** [g -= g.mean(axis=0)] *)
  Definition centered N M (g : 'M[F]_(N, M)) : 'M[F]_(N, M) := \matrix_(n, i) (g n i - column_mean g i 0).
  (** [np.cov(u1, u2, bias=True)[0][1]].  statistics.py 147-149. *)
  Definition error_covariance N (u1 u2 : 'cV[F]_N) : F :=
    over N * \sum_n (u1 n 0 - column_mean u1 0 0) * (u2 n 0 - column_mean u2 0 0).
  (** [Groups(ids).sum(g)]: a row for each distinct ID.  (NumPy sorts them, see C03, which does not matter here.) *)
  Definition clusters N (T : eqType) (ids : 'I_N -> T) : seq T := undup [seq ids n | n <- enum 'I_N].
  Definition cluster_sum N M (T : eqType) (ids : 'I_N -> T) (g : 'M[F]_(N, M)) : 'M[F]_(size (clusters ids), M) :=
    \matrix_(c, i) \sum_(n | ids n == tnth (in_tuple (clusters ids)) c) g n i.

  Inductive covariance_type (N : nat) := Unadjusted | Robust | Clustered (T : eqType) (ids : 'I_N -> T).
  Arguments Unadjusted {N}. Arguments Robust {N}.
  (** [compute_gmm_moment_covariances].  statistics.py 85-110. *)
  Definition outer N M (g : 'M[F]_(N, M)) : 'M[F]_M := g^T *m g.
  Definition moment_covariances E N (q : 'I_E -> nat) (u : 'I_E -> 'cV[F]_N) (Z : forall e, 'M[F]_(N, q e))
      (type : covariance_type N) (center : bool) : 'M[F]_(\sum_e q e) :=
    let g := if center then centered (gmm_moments u Z) else gmm_moments u Z in
    symmetrised (over N *:
      match type with
      | Unadjusted => \mxblock_(e, f) (error_covariance (u e) (u f) *: ((Z e)^T *m Z f))
      | Robust => outer g
      | Clustered T ids => outer (cluster_sum ids g)
      end).

  (** [compute_gmm_weights] given the inverse of S.  statistics.py 70-82. *)
  Definition gmm_weights M (inverted : 'M[F]_M) : 'M[F]_M := symmetrised inverted.

  (** [compute_gmm_parameter_covariances] given the inverse of what it inverts.  statistics.py 113-129. *)
  Definition gmm_information M P (W : 'M[F]_M) (G : 'M[F]_(M, P)) : 'M[F]_P := G^T *m W *m G.
  Definition parameter_covariances M P (W S : 'M[F]_M) (G : 'M[F]_(M, P)) (inverted : 'M[F]_P) (unadjusted : bool) : 'M[F]_P :=
    symmetrised (if unadjusted then inverted else inverted *m G^T *m W *m S *m W *m G *m inverted).
  (** [compute_gmm_parameter_sensitivity].  statistics.py 132-144. *)
  Definition parameter_sensitivity M P (W : 'M[F]_M) (G : 'M[F]_(M, P)) (inverted : 'M[F]_P) : 'M[F]_(P, M) :=
    - (inverted *m G^T *m W).
  (** The weighting matrix that is used for both when reporting results: a new one for unadjusted standard errors
      in the first step.  problem_results.py 546-564. *)
  Definition weights_for_covariances M (unadjusted : bool) (step : nat) (W updated : 'M[F]_M) : 'M[F]_M :=
    if unadjusted && (step == 1%N) then updated else W.

  (** [run_wald_test] given the inverse of [wald_matrix].  problem_results.py 1111-1116. *)
  Definition wald_matrix P Q (V : 'M[F]_P) (R : 'M[F]_(Q, P)) : 'M[F]_Q := R *m V *m R^T.
  Definition wald_statistic Q (N : nat) (inverted : 'M[F]_Q) (r : 'cV[F]_Q) : F := N%:R * (r^T *m inverted *m r) 0 0.

  (* ---------- Jacobians of moments for standard errors ---------- *)

  (** [_compute_mean_G] for one demand and one supply equation in levels, covariance moments, and parameters that are
      P elements of theta, K1 concentrated-out elements of beta and K3 of gamma.  problem_results.py 625-708. *)
  Definition times N P (u : 'cV[F]_N) (J : 'M[F]_(N, P)) : 'M[F]_(N, P) := \matrix_(n, p) (u n 0 * J n p).
  Definition jacobian_mean N M P (J : 'M[F]_(N, P)) (Z : 'M[F]_(N, M)) : 'M[F]_(M, P) :=
    \matrix_(i, p) (over N * \sum_n J n p * Z n i).
  Definition mean_G N P K1 K3 MD MS MC (xi omega : 'cV[F]_N) (X1 : 'M[F]_(N, K1)) (X3 : 'M[F]_(N, K3))
      (ZD : 'M[F]_(N, MD)) (ZS : 'M[F]_(N, MS)) (ZC : 'M[F]_(N, MC))
      (xi_by_theta omega_by_theta : 'M[F]_(N, P)) : 'M[F]_(MD + MS + MC, P + (K1 + K3)) :=
    col_mx (col_mx
      (jacobian_mean (row_mx xi_by_theta (row_mx (- X1) 0)) ZD)
      (jacobian_mean (row_mx omega_by_theta (row_mx 0 (- X3))) ZS))
      (jacobian_mean (row_mx (times omega xi_by_theta + times xi omega_by_theta)
                             (row_mx (times omega (- X1)) (times xi (- X3)))) ZC).
  (** Jacobians that results carry: with covariance moments, those that [IV.estimate] converted.
      problem.py 1378, 1470-1500 and problem_results.py 391. *)
  Definition reported_jacobians N P K1 K3 MD MS MC (X1 : 'M[F]_(N, K1)) (X3 : 'M[F]_(N, K3))
      (ZD : 'M[F]_(N, MD)) (ZS : 'M[F]_(N, MS)) (W : 'M[F]_(MD + MS)) (covariances : 'M[F]_(K1 + K3))
      (delta_by_theta costs_by_theta : 'M[F]_(N, P)) : 'M[F]_(N, P) * 'M[F]_(N, P) :=
    if MC == 0%N then (delta_by_theta, costs_by_theta)
    else let J := iv_convert (block_mx X1 0 0 X3) (block_mx ZD 0 0 ZS) W covariances (col_mx delta_by_theta costs_by_theta) in
         (usubmx J, dsubmx J).
End Stats.
