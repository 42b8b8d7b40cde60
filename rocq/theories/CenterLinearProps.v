(** Theorems about estimates when mean utilities are lowered by a linear function of characteristics: C150. *)
From mathcomp Require Import all_ssreflect all_algebra.
From Verif Require Import StatsModel.
Set Implicit Arguments.
Unset Strict Implicit.
Unset Printing Implicit Defensive.
Import GRing.Theory Num.Theory.
Local Open Scope ring_scope.

(** If what is subtracted from mean utilities is a linear function of X1, linear parameters are lowered by its coefficients, and
    structural errors, so objectives, are the same. *)
Theorem C150_estimates (F : realFieldType) R K M (X : 'M[F]_(R, K)) (Z : 'M[F]_(R, M)) (W : 'M[F]_M) (A : 'M[F]_K) (delta : 'cV[F]_R) (b : 'cV[F]_K) :
  A *m iv_information X Z W = 1%:M ->
  iv_parameters X Z W A (delta - X *m b) = iv_parameters X Z W A delta - b /\
  iv_residuals X Z W A (delta - X *m b) = iv_residuals X Z W A delta.
Proof.
  move=> HA.
  have E : iv_parameters X Z W A (delta - X *m b) = iv_parameters X Z W A delta - b.
    rewrite /iv_parameters !mulmxBr; congr (_ - _).
    rewrite -[RHS]mul1mx -HA /iv_information trmx_mul trmxK !mulmxA //.
  split=> //. rewrite /iv_residuals E mulmxBr opprB addrA subrK //.
Qed.
Print Assumptions C150_estimates.

(** Two rows, where X1 and instruments are a constant. *)
Example C150_estimates_apply (F : realFieldType) :
  2%:R^-1 ^+ 2 *: 1%:M *m iv_information (const_mx 1 : 'M[F]_(2, 1)) (const_mx 1 : 'M[F]_(2, 1)) 1%:M = 1%:M.
Proof.
  apply/matrixP=> i j; rewrite !ord1 /iv_information mulmx1 -scalemxAl mul1mx !mxE big_ord_recl big_ord0 addr0 !mxE.
  by rewrite !big_ord_recl !big_ord0 !mxE !mulr1 addr0 expr2 mulrACA mulVf ?mulr1 // pnatr_eq0.
Qed.
