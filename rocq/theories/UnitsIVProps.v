(** C133: units of variables in linear GMM. *)
Set Warnings "-notation-overridden,-ambiguous-paths".
From mathcomp Require Import all_ssreflect all_algebra.
From Verif Require Import StatsModel UnitsIV.
Set Implicit Arguments.
Unset Strict Implicit.
Unset Printing Implicit Defensive.
Import Order.TTheory GRing.Theory Num.Theory.
Local Open Scope ring_scope.

(** C133: when linear characteristics and instruments are replaced by invertible linear combinations of them (units are the
    diagonal case), and weights are those for the new instruments, estimates are those for the new characteristics, ... *)
Theorem C133_parameters :
  forall (F : realFieldType) R K M (X : 'M[F]_(R, K)) (Z : 'M[F]_(R, M)) (W W' : 'M[F]_M) (P : 'M[F]_K) (Q : 'M[F]_M) (A A' : 'M[F]_K)
    (y : 'cV[F]_R),
  P \in unitmx -> Q *m W' *m Q^T = W ->
  A *m iv_information X Z W = 1%:M -> A' *m iv_information (X *m P) (Z *m Q) W' = 1%:M ->
  P *m iv_parameters (X *m P) (Z *m Q) W' A' y = iv_parameters X Z W A y.
Proof. move=> F R K M X Z W W' P Q A A' y HP HW HA HA'. exact: parameters_units HP HW HA HA' _ y. Qed.
Print Assumptions C133_parameters.

(** ... and residuals, that is structural errors, are the same. *)
Theorem C133_residuals :
  forall (F : realFieldType) R K M (X : 'M[F]_(R, K)) (Z : 'M[F]_(R, M)) (W W' : 'M[F]_M) (P : 'M[F]_K) (Q : 'M[F]_M) (A A' : 'M[F]_K)
    (y : 'cV[F]_R),
  P \in unitmx -> Q *m W' *m Q^T = W ->
  A *m iv_information X Z W = 1%:M -> A' *m iv_information (X *m P) (Z *m Q) W' = 1%:M ->
  iv_residuals (X *m P) (Z *m Q) W' A' y = iv_residuals X Z W A y.
Proof. move=> F R K M X Z W W' P Q A A' y HP HW HA HA'. exact: residuals_units HP HW HA HA' y. Qed.
Print Assumptions C133_residuals.

(** C133: weights for the new instruments are such weights, in the first step and when they are updated, for each type of covariances. *)
Theorem C133_initial_weights :
  forall (F : realFieldType) R M (Z : 'M[F]_(R, M)) (Q V V' : 'M[F]_M) (c : F), Q \in unitmx ->
  V *m (c *: (Z^T *m Z)) = 1%:M -> V' *m (c *: ((Z *m Q)^T *m (Z *m Q))) = 1%:M ->
  Q *m gmm_weights V' *m Q^T = gmm_weights V.
Proof. move=> F R M Z Q V V' c. exact: initial_units. Qed.
Print Assumptions C133_initial_weights.
Theorem C133_updated_weights :
  forall (F : realFieldType) E N (q : 'I_E -> nat) (u : 'I_E -> 'cV[F]_N) (Z : forall e, 'M[F]_(N, q e)) (Q : forall e, 'M[F]_(q e))
    (type : covariance_type N) center V V',
  let S := moment_covariances u Z type center in
  let S' := moment_covariances u (fun e => Z e *m Q e) type center in
  let D := \mxdiag_e Q e in
  D \in unitmx -> V *m S = 1%:M -> V' *m S' = 1%:M ->
  S' = D^T *m S *m D /\ D *m gmm_weights V' *m D^T = gmm_weights V.
Proof.
  move=> F E N q u Z Q type center V V' S S' D HD HV HV'. have HS : S' = D^T *m S *m D by exact: moment_covariances_units.
  split=> //. exact: weights_units HD HS HV HV'.
Qed.
Print Assumptions C133_updated_weights.

(** C133: so the objective, at mean moments g, is the same. *)
Theorem C133_objective :
  forall (F : realFieldType) M (Q W W' : 'M[F]_M) (g : 'cV[F]_M), Q *m W' *m Q^T = W ->
  (Q^T *m g)^T *m W' *m (Q^T *m g) = g^T *m W *m g.
Proof. move=> F M Q W W' g. exact: objective_units. Qed.
Print Assumptions C133_objective.

(** C133: covariances of parameters are those of parameters in other units, robust or not, ... *)
Theorem C133_parameter_covariances :
  forall (F : realFieldType) M P (Q W W' S S' : 'M[F]_M) (G : 'M[F]_(M, P)) (D V V' : 'M[F]_P) unadjusted,
  D \in unitmx -> Q *m W' *m Q^T = W -> S' = Q^T *m S *m Q ->
  V *m gmm_information W G = 1%:M -> V' *m gmm_information W' (Q^T *m G *m D) = 1%:M ->
  D *m parameter_covariances W' S' (Q^T *m G *m D) V' unadjusted *m D^T = parameter_covariances W S G V unadjusted.
Proof. move=> F M P Q W W' S S' G D V V' un HD HW HS HV HV'. exact: parameter_covariances_units HD HW HS HV HV' un. Qed.
Print Assumptions C133_parameter_covariances.
(** ... so squared ratios of estimates to standard errors are the same when units of single characteristics are changed. *)
Theorem C133_significance :
  forall (F : realFieldType) n (d : 'rV[F]_n) (V V' : 'M[F]_n) (b b' : 'cV[F]_n) i, d 0 i != 0 ->
  diag_mx d *m V' *m (diag_mx d)^T = V -> diag_mx d *m b' = b ->
  b' i 0 ^+ 2 / V' i i = b i 0 ^+ 2 / V i i.
Proof. move=> F n d V V' b b' i. exact: statistic_units. Qed.
Print Assumptions C133_significance.

(** Two rows; characteristics are measured in halves, and instruments in thirds, of their units. *)
Example C133_applies :
  let X : 'M[rat]_(2, 1) := \col_i (1 + i%:R) in let Z : 'M[rat]_(2, 1) := const_mx 1 in
  let P : 'M[rat]_1 := 2%:R%:M in let Q : 'M[rat]_1 := 3%:R%:M in
  let W : 'M[rat]_1 := 1%:M in let W' : 'M[rat]_1 := (9%:R^-1)%:M in
  let A : 'M[rat]_1 := (9%:R^-1)%:M in let A' : 'M[rat]_1 := (36%:R^-1)%:M in
  [/\ P \in unitmx, Q *m W' *m Q^T = W, A *m iv_information X Z W = 1%:M & A' *m iv_information (X *m P) (Z *m Q) W' = 1%:M].
Proof.
  move=> X Z P Q W W' A A'.
  have EI : Z^T *m X = 3%:R%:M.
    apply/matrixP => i j. rewrite !ord1 !mxE !big_ord_recl big_ord0 !mxE /=. by apply/eqP.
  have HW : Q *m W' *m Q^T = W.
    rewrite /Q /W' /W tr_scalar_mx -!scalar_mxM. congr (_%:M).
  have HA : A *m iv_information X Z W = 1%:M.
    rewrite /iv_information EI /A /W tr_scalar_mx -!scalar_mxM. congr (_%:M).
  split=> //.
  - rewrite unitmxE det_scalar1 unitfE. by apply/eqP.
  - rewrite (information_units X Z P HW) /iv_information EI /A' /W /P !tr_scalar_mx -!scalar_mxM. congr (_%:M).
Qed.
