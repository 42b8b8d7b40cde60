(** Vocabulary for statements about statistics. *)
Set Warnings "-notation-overridden,-ambiguous-paths".
From mathcomp Require Import all_ssreflect all_algebra.
Set Implicit Arguments.
Unset Strict Implicit.
Unset Printing Implicit Defensive.
Import GRing.Theory Num.Theory.
Local Open Scope ring_scope.

Section Spec.
  Context {F : realFieldType}.
  Definition symmetric n (A : 'M[F]_n) : Prop := A^T = A.
  Definition quadratic n (A : 'M[F]_n) (x : 'cV[F]_n) : F := (x^T *m A *m x) 0 0.
  Definition positive_semidefinite n (A : 'M[F]_n) : Prop := forall x, 0 <= quadratic A x.
  Definition inverse_of n (A B : 'M[F]_n) : Prop := A *m B = 1%:M.
  (** First-order conditions of minimising (y - X b)' Z W Z' (y - X b) over b. *)
  Definition first_order R K M (X : 'M[F]_(R, K)) (Z : 'M[F]_(R, M)) (W : 'M[F]_M) (y : 'cV[F]_R) (b : 'cV[F]_K) : Prop :=
    X^T *m Z *m W *m Z^T *m (y - X *m b) = 0.
  Definition iv_objective R K M (X : 'M[F]_(R, K)) (Z : 'M[F]_(R, M)) (W : 'M[F]_M) (y : 'cV[F]_R) (b : 'cV[F]_K) : F :=
    quadratic W (Z^T *m (y - X *m b)).
End Spec.

Section Moments.
  Context {F : realFieldType}.
  (** Averages of xi ZD, omega ZS and xi omega ZC. *)
  Definition mean_moments N MD MS MC (ZD : 'M[F]_(N, MD)) (ZS : 'M[F]_(N, MS)) (ZC : 'M[F]_(N, MC)) (xi omega : 'cV[F]_N)
      : 'cV[F]_(MD + MS + MC) :=
    col_mx (col_mx (N%:R^-1 *: (ZD^T *m xi)) (N%:R^-1 *: (ZS^T *m omega)))
           (N%:R^-1 *: (ZC^T *m (\col_n (xi n 0 * omega n 0)))).
  (** G is the Jacobian of these with respect to parameters (theta, beta, gamma) when derivatives of delta and costs with
      respect to theta are given: the effect of any change in parameters is G times the change, up to a term that is
      of second order. *)
  Definition moments_jacobian N P K1 K3 MD MS MC (ZD : 'M[F]_(N, MD)) (ZS : 'M[F]_(N, MS)) (ZC : 'M[F]_(N, MC))
      (X1 : 'M[F]_(N, K1)) (X3 : 'M[F]_(N, K3)) (delta_by_theta costs_by_theta : 'M[F]_(N, P)) (xi omega : 'cV[F]_N)
      (G : 'M[F]_(MD + MS + MC, P + (K1 + K3))) : Prop :=
    forall (theta : 'cV[F]_P) (beta : 'cV[F]_K1) (gamma : 'cV[F]_K3),
    let dxi := delta_by_theta *m theta - X1 *m beta in
    let domega := costs_by_theta *m theta - X3 *m gamma in
    mean_moments ZD ZS ZC (xi + dxi) (omega + domega) =
      mean_moments ZD ZS ZC xi omega + G *m col_mx theta (col_mx beta gamma)
      + col_mx 0 (N%:R^-1 *: (ZC^T *m (\col_n (dxi n 0 * domega n 0)))).
End Moments.
