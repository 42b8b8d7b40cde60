(** Properties of linear GMM estimation, covariances, sensitivity, the Wald statistic and approximate inversion:
    C29, C30, C31, C54, C71 and C72. *)
Set Warnings "-notation-overridden,-ambiguous-paths".
From mathcomp Require Import all_ssreflect all_algebra.
From Verif Require Import StatsModel StatsSpec StatsProofs.
Set Implicit Arguments.
Unset Strict Implicit.
Unset Printing Implicit Defensive.
Import GRing.Theory Num.Theory.
Local Open Scope ring_scope.

(** Entries of concrete matrices. *)
Ltac entries := do 9 rewrite ?mxE ?big_ord_recl ?big_ord0.
Ltac scalar_matrix := apply/matrixP => i j; rewrite !ord1; entries; apply/eqP; vm_compute; reflexivity.

(* ---------- C29 ---------- *)

(** The parameters are the only ones that solve the first-order conditions, they minimise the objective, and
    instruments that are orthogonal to the residuals at some parameters recover these. *)
Theorem C29_first_order (F : realFieldType) R K M (X : 'M[F]_(R, K)) (Z : 'M[F]_(R, M)) (W : 'M[F]_M) (C : 'M[F]_K) (y : 'cV[F]_R) :
  inverse_of C (iv_information X Z W) ->
  first_order X Z W y (iv_parameters X Z W C y) /\
  (forall b, first_order X Z W y b -> b = iv_parameters X Z W C y) /\
  (forall b, Z^T *m (y - X *m b) = 0 -> iv_parameters X Z W C y = b) /\
  (symmetric W -> positive_semidefinite W -> forall b, iv_objective X Z W y (iv_parameters X Z W C y) <= iv_objective X Z W y b).
Proof.
  move=> I; split; first exact: iv_foc. split; first by move=> b; exact: iv_unique. split; first by move=> b; exact: iv_exact.
  by move=> S P b; exact: iv_minimises.
Qed.
Print Assumptions C29_first_order.

(** Residuals of each equation, and again of the residuals. *)
Theorem C29_residuals (F : realFieldType) E N K (q : 'I_E -> nat) (X : forall e : 'I_E, 'M[F]_(N, K)) (Z : forall e, 'M[F]_(N, q e))
    (W : 'M[F]_(\sum_e q e)) C (y : forall e : 'I_E, 'cV[F]_N) :
  let b := stacked_parameters X Z W C y in
  (forall e, stacked_residuals X Z W C y e = y e - X e *m b) /\
  (inverse_of C (iv_information (\mxcol_e X e) (block_diag Z) W) ->
   stacked_parameters X Z W C (stacked_residuals X Z W C y) = 0).
Proof.
  move=> b; split; first by move=> e; exact: residual_split.
  move=> I. rewrite /stacked_parameters. rewrite /stacked_residuals submxcolK. exact: iv_residuals_zero.
Qed.
Print Assumptions C29_residuals.

(** Converted Jacobians: residuals change by exactly these times any change in what determines y. *)
Theorem C29_jacobian (F : realFieldType) R K M P (X : 'M[F]_(R, K)) (Z : 'M[F]_(R, M)) (W : 'M[F]_M) (C : 'M[F]_K)
    (y : 'cV[F]_R) (J : 'M[F]_(R, P)) (h : 'cV[F]_P) :
  iv_residuals X Z W C (y + J *m h) = iv_residuals X Z W C y + iv_convert X Z W C J *m h.
Proof. exact: iv_jacobian. Qed.
Print Assumptions C29_jacobian.

Definition line : 'M[rat]_(2, 1) := \matrix_(i, j) (i.+1)%:R.
Example C29_applies : inverse_of (5%:R^-1)%:M (iv_information line 1%:M 1%:M) /\ symmetric (1%:M : 'M[rat]_2) /\
  positive_semidefinite (1%:M : 'M[rat]_2).
Proof.
  split; [|split].
  - rewrite /inverse_of /iv_information trmx1 !mul1mx. scalar_matrix.
  - exact: trmx1.
  - move=> x. rewrite /quadratic mulmx1. exact: square_ge0.
Qed.

(* ---------- C30 ---------- *)

(** Reported matrices are symmetric whatever was inverted, and moment covariances are positive semidefinite. *)
Theorem C30_symmetric (F : realFieldType) E N P M (q : 'I_E -> nat) (u : 'I_E -> 'cV[F]_N) (Z : forall e, 'M[F]_(N, q e))
    (type : covariance_type N) center (A W S : 'M[F]_M) (G : 'M[F]_(M, P)) V unadjusted :
  symmetric (gmm_weights A) /\ symmetric (moment_covariances u Z type center) /\
  symmetric (parameter_covariances W S G V unadjusted) /\
  positive_semidefinite (moment_covariances u Z type center).
Proof.
  split; [|split; [|split]]; [exact: symmetrised_symmetric..|exact: moment_covariances_psd].
Qed.
Print Assumptions C30_symmetric.

(** Making an exact inverse of moment covariances symmetric does not change it. *)
Theorem C30_weights (F : realFieldType) M (A S : 'M[F]_M) : symmetric S -> inverse_of A S -> gmm_weights A = A.
Proof. by move=> H I; apply: symmetrised_id; exact: (inverse_symmetric H I). Qed.
Print Assumptions C30_weights.

(** Parameter covariances are positive semidefinite, so standard errors are well defined. *)
Theorem C30_parameters (F : realFieldType) M P (W S : 'M[F]_M) (G : 'M[F]_(M, P)) V unadjusted :
  symmetric W -> positive_semidefinite W -> symmetric S -> positive_semidefinite S -> inverse_of V (gmm_information W G) ->
  positive_semidefinite (parameter_covariances W S G V unadjusted).
Proof.
  move=> SW PW SS PS I; case: unadjusted; [exact: unadjusted_covariances_psd|exact: covariances_psd].
Qed.
Print Assumptions C30_parameters.

(** Each observation in its own cluster is the same as no clustering. *)
Theorem C30_own_clusters (F : realFieldType) E N (q : 'I_E -> nat) (u : 'I_E -> 'cV[F]_N) (Z : forall e, 'M[F]_(N, q e))
    (T : eqType) (ids : 'I_N -> T) center : injective ids ->
  moment_covariances u Z (Clustered ids) center = moment_covariances u Z (Robust N) center.
Proof. by move=> I; rewrite /moment_covariances cluster_singletons. Qed.
Print Assumptions C30_own_clusters.

(** If all observations are in one cluster, moment covariances are N times the outer product of average moments: they
    have a rank of at most one, and are zero if moments were centered. *)
Theorem C30_one_cluster (F : realFieldType) E N (q : 'I_E -> nat) (u : 'I_E -> 'cV[F]_N.+1) (Z : forall e, 'M[F]_(N.+1, q e))
    (T : eqType) (ids : 'I_N.+1 -> T) : (forall n m, ids n = ids m) ->
  let gbar := column_mean (gmm_moments u Z) in
  moment_covariances u Z (Clustered ids) false = N.+1%:R *: (gbar *m gbar^T) /\
  moment_covariances u Z (Clustered ids) true = 0.
Proof.
  move=> I gbar. rewrite /moment_covariances !(cluster_whole _ I).
  split; first by apply: symmetrised_id; rewrite /symmetric linearZ /= trmx_mul trmxK.
  have -> : column_mean (centered (gmm_moments u Z)) = 0 by exact: centered_mean.
  by rewrite mul0mx scaler0 /symmetrised trmx0 addr0 scaler0.
Qed.
Print Assumptions C30_one_cluster.

(** Centering subtracts the outer product of average moments, which are Z'u / N. *)
Theorem C30_centering (F : realFieldType) E N (q : 'I_E -> nat) (u : 'I_E -> 'cV[F]_N.+1) (Z : forall e, 'M[F]_(N.+1, q e)) :
  let gbar := N.+1%:R^-1 *: ((block_diag Z)^T *m \mxcol_e u e) in
  moment_covariances u Z (Robust _) true = moment_covariances u Z (Robust _) false - gbar *m gbar^T.
Proof.
  move=> gbar. rewrite /moment_covariances centered_outer.
  have -> : gbar = column_mean (gmm_moments u Z) by rewrite moments_stacked.
  by apply: symmetrised_minus; rewrite /symmetric trmx_mul trmxK.
Qed.
Print Assumptions C30_centering.

(** With the inverse of moment covariances as the weighting matrix, standard errors of all types are the same. *)
Theorem C30_optimal (F : realFieldType) M P (W S : 'M[F]_M) (G : 'M[F]_(M, P)) V :
  inverse_of W S -> inverse_of V (gmm_information W G) ->
  parameter_covariances W S G V false = parameter_covariances W S G V true.
Proof. exact: optimal_covariances. Qed.
Print Assumptions C30_optimal.

Example C30_applies : let W : 'M[rat]_2 := 2%:R%:M in let S : 'M[rat]_2 := (2%:R^-1)%:M in
  inverse_of W S /\ symmetric W /\ positive_semidefinite W /\ inverse_of (10%:R^-1)%:M (gmm_information W line) /\
  injective (fun n : 'I_2 => n) /\ (forall n m : 'I_2, (fun _ => 0%N) n = (fun _ => 0%N) m).
Proof.
  split; [|split; [|split; [|split; [|split]]]] => //.
  - rewrite /inverse_of -scalar_mxM. by congr (scalar_mx _); apply/eqP; vm_compute.
  - exact: tr_scalar_mx.
  - move=> x. rewrite /quadratic mul_mx_scalar -scalemxAl [X in _ <= X]mxE. apply: mulr_ge0 => //. exact: square_ge0.
  - rewrite /inverse_of /gmm_information mul_mx_scalar. scalar_matrix.
Qed.

(* ---------- C31 ---------- *)

(** Nothing is ever said about a replacement that was used: if any method returned a matrix, nothing is reported, and
    a report means that no method did and the matrix is full of null values. *)
Theorem C31_report A (inv pinv diagonal : outcome A) nan pseudo a r :
  approximately_invert inv pinv diagonal nan pseudo = Some (a, r) ->
  (r = None -> Returned a = pinv \/ Returned a = diagonal \/ (pseudo = false /\ Returned a = inv)) /\
  (r <> None -> a = nan).
Proof. exact: invert_report. Qed.
Print Assumptions C31_report.

(** What is reported when: diagonal terms exactly if all methods failed, null values exactly if a method was given NaN, and the
    pseudo-inverse never.  A system that could not be solved comes with what inversion reports. *)
Theorem C31_reported A B (inv pinv diagonal : outcome A) nan pseudo a r (solve : outcome B) times :
  approximately_invert inv pinv diagonal nan pseudo = Some (a, r) ->
  (r = Some InvertedDiagonal <-> (pseudo \/ inv = RaisedLinAlg) /\ pinv = RaisedLinAlg /\ diagonal = RaisedLinAlg) /\
  (r = Some NullValues <->
     ~~ pseudo /\ inv = RaisedValueError \/ (pseudo \/ inv = RaisedLinAlg) /\ pinv = RaisedValueError \/
     (pseudo \/ inv = RaisedLinAlg) /\ pinv = RaisedLinAlg /\ diagonal = RaisedValueError) /\
  r <> Some PseudoInverse /\
  ((forall b, solve <> Returned b) -> approximately_solve solve (approximately_invert inv pinv diagonal nan pseudo) times = Some (times a, r)).
Proof.
  move=> H. have [D [N P]] := invert_reported H. split; [exact: D|split; [exact: N|split; [exact: P|]]].
  rewrite H. by case: solve => // b /(_ b).
Qed.
Print Assumptions C31_reported.

(** So a pseudo-inverse is used in place of an inverse silently. *)
Theorem C31_refuted A (a nan : A) (diagonal : outcome A) :
  approximately_invert RaisedLinAlg (Returned a) diagonal nan false = Some (a, None) /\
  approximately_invert RaisedLinAlg RaisedLinAlg (Returned a) nan false = Some (a, None).
Proof. by []. Qed.
Print Assumptions C31_refuted.

(** What does hold: with a matrix that can be inverted, its inverse is used; with NaN in it, null values are, and this is
    reported; and solving a system only inverts when it could not be solved. *)
Theorem C31_exact_partial A B (a nan : A) (pinv diagonal : outcome A) (b : B) (inverted : option (A * option replacement)) times :
  approximately_invert (Returned a) pinv diagonal nan false = Some (a, None) /\
  approximately_invert RaisedValueError pinv diagonal nan false = Some (nan, Some NullValues) /\
  approximately_solve (Returned b) inverted times = Some (b, None).
Proof. by []. Qed.
Print Assumptions C31_exact_partial.

(** If no inverse or pseudo-inverse could be computed and there is a zero on the diagonal, the warning about dividing by
    zero is raised as an exception. *)
Theorem C31_uncaught A (nan : A) pseudo :
  approximately_invert RaisedLinAlg RaisedLinAlg RaisedOther nan pseudo = None.
Proof. by case: pseudo. Qed.
Print Assumptions C31_uncaught.

(* ---------- C54 ---------- *)

(** The Wald statistic does not depend on how restrictions are recombined. *)
Theorem C54_wald (F : realFieldType) P Q N (V : 'M[F]_P) (R : 'M[F]_(Q, P)) (r : 'cV[F]_Q) (A B I J : 'M[F]_Q) :
  inverse_of A B -> inverse_of I (wald_matrix V R) -> inverse_of J (wald_matrix V (A *m R)) ->
  wald_statistic N J (A *m r) = wald_statistic N I r.
Proof. exact: wald_invariant. Qed.
Print Assumptions C54_wald.

Example C54_wald_applies : let V : 'M[rat]_1 := 1%:M in
  inverse_of (2%:R%:M : 'M[rat]_1) (2%:R^-1)%:M /\ inverse_of 1%:M (wald_matrix V 1%:M) /\
  inverse_of (4%:R^-1)%:M (wald_matrix V (2%:R%:M *m 1%:M)).
Proof. split; [|split]; rewrite /inverse_of /wald_matrix ?mulmx1 ?tr_scalar_mx -?scalar_mxM; congr (scalar_mx _); apply/eqP; vm_compute. Qed.

(* ---------- C72 ---------- *)

(** With the weighting matrix of the estimates, sensitivity is minus a left inverse of the Jacobian of moments, and
    robust covariances are those of the linear function of moments that it defines. *)
Theorem C72_sensitivity (F : realFieldType) M P (W S updated : 'M[F]_M) (G : 'M[F]_(M, P)) V unadjusted step :
  symmetric W -> symmetric S -> inverse_of V (gmm_information W G) -> ~~ (unadjusted && (step == 1%N)) ->
  let L := parameter_sensitivity (weights_for_covariances unadjusted step W updated) G V in
  L = - (V *m G^T *m W) /\ L *m G = - 1%:M /\
  parameter_covariances W S G V false = L *m S *m L^T.
Proof.
  move=> SW SS I H. rewrite /weights_for_covariances (negbTE H) /=.
  split; [by []|split]; [exact: sensitivity_inverse|exact: sandwich].
Qed.
Print Assumptions C72_sensitivity.

(** But unadjusted standard errors after the first step come with the sensitivity of an estimator that was not used. *)
Definition steps_weights : 'M[rat]_2 := \matrix_(i, j) (if i == j then (i.+1)%:R else 0).
Definition ones : 'M[rat]_(2, 1) := \matrix_(i, j) 1.
Theorem C72_refuted : exists (W updated : 'M[rat]_2) (G : 'M[rat]_(2, 1)) V V',
  symmetric W /\ symmetric updated /\ inverse_of V (gmm_information W G) /\ inverse_of V' (gmm_information updated G) /\
  parameter_sensitivity (weights_for_covariances true 1 W updated) G V' <> - (V *m G^T *m W).
Proof.
  exists 1%:M, steps_weights, ones, (2%:R^-1)%:M, (3%:R^-1)%:M. split; [|split; [|split; [|split]]].
  - exact: trmx1.
  - apply/matrixP => i j. rewrite !mxE eq_sym. by case: eqP => // ->.
  - rewrite /inverse_of /gmm_information mulmx1. scalar_matrix.
  - rewrite /inverse_of /gmm_information. scalar_matrix.
  - move=> /matrixP /(_ 0 0). rewrite /parameter_sensitivity /weights_for_covariances mulmx1. entries. by move=> /eqP; vm_compute.
Qed.
Print Assumptions C72_refuted.

(* ---------- C71 ---------- *)

(** Without covariance moments, standard errors come from the Jacobian of moments with respect to all parameters. *)
Theorem C71_jacobian (F : realFieldType) N P K1 K3 MD MS MC (xi omega : 'cV[F]_N) (X1 : 'M[F]_(N, K1)) (X3 : 'M[F]_(N, K3))
    (ZD : 'M[F]_(N, MD)) (ZS : 'M[F]_(N, MS)) (ZC : 'M[F]_(N, MC)) (W : 'M[F]_(MD + MS)) C (J H : 'M[F]_(N, P)) :
  MC = 0%N ->
  let reported := reported_jacobians MC X1 X3 ZD ZS W C J H in
  moments_jacobian ZD ZS ZC X1 X3 J H xi omega (mean_G xi omega X1 X3 ZD ZS ZC reported.1 reported.2).
Proof. by move=> /eqP E; rewrite /reported_jacobians E; exact: mean_G_correct. Qed.
Print Assumptions C71_jacobian.

(** With them, they come from a Jacobian in which linear parameters have already been allowed to change with theta.
    Covariances of theta are right all the same, those of linear parameters are not. *)
Theorem C71_theta_partial (F : realFieldType) N P K1 K3 MD MS MC (xi omega : 'cV[F]_N) (X1 : 'M[F]_(N, K1)) (X3 : 'M[F]_(N, K3))
    (ZD : 'M[F]_(N, MD)) (ZS : 'M[F]_(N, MS)) (ZC : 'M[F]_(N, MC)) (W0 : 'M[F]_(MD + MS)) C (J H : 'M[F]_(N, P))
    (W S : 'M[F]_(MD + MS + MC)) V V' unadjusted :
  let reported := reported_jacobians MC X1 X3 ZD ZS W0 C J H in
  let G := mean_G xi omega X1 X3 ZD ZS ZC J H in
  let G' := mean_G xi omega X1 X3 ZD ZS ZC reported.1 reported.2 in
  let B := iv_parameters (block_mx X1 0 0 X3) (block_mx ZD 0 0 ZS) W0 C (col_mx J H) in
  let right := parameter_covariances W S G V unadjusted in
  let said := parameter_covariances W S G' V' unadjusted in
  inverse_of V (gmm_information W G) -> inverse_of V' (gmm_information W G') ->
  moments_jacobian ZD ZS ZC X1 X3 J H xi omega G /\
  ulsubmx said = ulsubmx right /\
  (MC <> 0%N -> drsubmx said = drsubmx right - B *m ursubmx right - dlsubmx right *m B^T + B *m ulsubmx right *m B^T).
Proof.
  move=> reported G G' B right said HV HV'. split; first exact: mean_G_correct.
  case: (eqVneq MC 0%N) => E.
  - have E' : (MC == 0%N) = true by apply/eqP.
    split; last by move=> X; case: X.
    have EG : G' = G by rewrite /G' /reported /reported_jacobians E'.
    have -> : said = right; last by [].
    rewrite /said /right EG. by rewrite (_ : V' = V) //; move: HV'; rewrite EG => HV'; exact: (inverse_unique HV' HV).
  - have EG : G' = G *m mixing B by rewrite /G' /reported (reported_eq _ _ _ _ _ _ _ _ E) /= mean_G_mixing.
    rewrite /said EG (covariances_transform _ _ (mixing_inverse B) HV) ?theta_block -?EG //.
    split=> // _. exact: linear_block.
Qed.
Print Assumptions C71_theta_partial.

(** The standard error of beta is wrong even with one coefficient, one parameter and three moments. *)
Definition same (a : rat) : 'cV[rat]_2 := const_mx a.
Definition pair (a b : rat) : 'cV[rat]_2 := \matrix_(i, j) (if i == 0 then a else b).
Section Beta.
  Let X1 : 'M[rat]_(2, 1) := same 1.
  Let X3 : 'M[rat]_(2, 0) := 0.
  Let Z : 'M[rat]_(2, 1) := same 1.
  Let J : 'M[rat]_(2, 1) := same 1.
  Let H : 'M[rat]_(2, 1) := pair 2%:R 0.
  Let xi : 'cV[rat]_2 := pair 2%:R (- 2%:R).
  Let omega : 'cV[rat]_2 := same (- 1).
  Let C : 'M[rat]_(1 + 0) := block_mx (4%:R^-1)%:M 0 0 0.
  Let V : 'M[rat]_(1 + (1 + 0)) := block_mx (3%:R^-1)%:M 0 0 (block_mx (2%:R^-1)%:M 0 0 0).
  Let G := mean_G xi omega X1 X3 Z Z Z J H.
  Let row (a b : rat) : 'M[rat]_(1, 1 + (1 + 0)) := row_mx a%:M (row_mx b%:M 0).
  Lemma row_square a b : (row a b)^T *m row a b =
    block_mx (a * a)%:M (row_mx (a * b)%:M 0) (col_mx (b * a)%:M 0) (block_mx (b * b)%:M 0 0 0).
  Proof.
    by rewrite /row !tr_row_mx !trmx0 !tr_scalar_mx mul_col_row mul_mx_row mul_col_mx mul_col_row -!scalar_mxM !mulmx0 !mul0mx.
  Qed.
  Lemma beta_G : G = col_mx (col_mx (row 1 (- 1)) (row 1 0)) (row 1 1).
  Proof.
    rewrite /G /mean_G /row !jacobian_mean_eq !mul_mx_row !scale_row_mx !mulmx0 !scaler0.
    congr (col_mx (col_mx (row_mx _ (row_mx _ _)) (row_mx _ (row_mx _ _))) (row_mx _ (row_mx _ _))); try exact: thinmx0.
    all: rewrite /xi /omega /X1 /X3 /Z /J /H; try scalar_matrix.
  Qed.
  Lemma beta_V : inverse_of V (gmm_information 1%:M G).
  Proof.
    have -> : gmm_information 1%:M G = block_mx 3%:R%:M 0 0 (block_mx 2%:R%:M 0 0 0).
    { rewrite /gmm_information mulmx1 beta_G !tr_col_mx !mul_row_col !row_square !add_block_mx !add_row_mx !add_col_mx !addr0.
      rewrite -[X in _ = block_mx _ X _ _]row_mx0 -[X in _ = block_mx _ _ X _]col_mx0.
      congr (block_mx _ (row_mx _ _) (col_mx _ _) (block_mx _ _ _ _)); scalar_matrix. }
    rewrite /inverse_of /V !mulmx_block !mul0mx !mulmx0 !addr0 !add0r -!scalar_mxM.
    rewrite [RHS]scalar_mx_block [X in _ = block_mx _ _ _ X]scalar_mx_block.
    congr (block_mx _ _ _ (block_mx _ _ _ _)); first [scalar_matrix | by apply/matrixP => -[]].
  Qed.
  Lemma beta_C : inverse_of C (iv_information (block_mx X1 0 0 X3) (block_mx Z 0 0 Z) 1%:M).
  Proof.
    rewrite /inverse_of /iv_information mulmx1 tr_block_mx !trmx0 mulmx_block !mul0mx !mulmx0 !addr0 tr_block_mx mulmx_block.
    rewrite !trmx0 !mul0mx !mulmx0 !addr0 /C mulmx_block !mulmx0 !mul0mx !addr0 [RHS]scalar_mx_block.
    congr (block_mx _ _ _ _); first [scalar_matrix | by apply/matrixP => -[] | by apply/matrixP => i -[]].
  Qed.
  Let B := iv_parameters (block_mx X1 0 0 X3) (block_mx Z 0 0 Z) 1%:M C (col_mx J H).
  Lemma beta_B : B = col_mx 1%:M 0.
  Proof.
    rewrite /B /iv_parameters mulmx1 !tr_block_mx !trmx0 mulmx_block mul_block_col !mul0mx !mulmx0 !addr0 /C.
    rewrite mul_block_col !mul0mx addr0 add0r mul_col_mx mul0mx mul_mx_row mulmx0 mul_row_col mul0mx addr0. congr (col_mx _ _).
    scalar_matrix.
  Qed.
  Let reported := reported_jacobians 1%N X1 X3 Z Z 1%:M C J H.
  Let G' := mean_G xi omega X1 X3 Z Z Z reported.1 reported.2.
  Let V' := mixing (- B) *m V *m (mixing (- B))^T.
  Lemma beta_V' : inverse_of V' (gmm_information 1%:M G').
  Proof.
    have -> : G' = G *m mixing B by rewrite /G' /reported (reported_eq (MC := 1%N)) //= mean_G_mixing.
    exact: (transformed_inverse (mixing_inverse B) beta_V).
  Qed.
  Lemma beta_variances : let at_beta : 'I_(1 + (1 + 0)) := rshift 1 (lshift 0 ord0) in
    parameter_covariances 1%:M 1%:M G V false at_beta at_beta = 2%:R^-1 /\
    parameter_covariances 1%:M 1%:M G' V' false at_beta at_beta = 2%:R^-1 + 3%:R^-1.
  Proof.
    move=> b. rewrite (optimal_covariances _ (mulmx1 _) beta_V) (optimal_covariances _ (mulmx1 _) beta_V').
    have SV : symmetric V by rewrite /symmetric /V !tr_block_mx !trmx0 !tr_scalar_mx.
    have SV' : symmetric V' by rewrite /symmetric /V' !trmx_mul trmxK SV mulmxA.
    rewrite /parameter_covariances (symmetrised_id SV) (symmetrised_id SV').
    have D (A : 'M[rat]_(1 + (1 + 0))) : A b b = (drsubmx A) (lshift 0 ord0) (lshift 0 ord0) by rewrite !mxE.
    rewrite !D /V' linear_block /V block_mxKdr block_mxKur block_mxKdl block_mxKul mulmx0 mul0mx !subr0 beta_B.
    rewrite tr_col_mx !mul_col_mx mul_mx_row !mul0mx trmx1 !mulmx1 mul1mx. split.
    - by rewrite block_mxEul mxE.
    - rewrite mxE block_mxEul mxE. congr (_ + _). by rewrite col_mxEu row_mxEl mxE.
  Qed.
  Lemma beta_first_order : Z^T *m xi = 0.
  Proof. rewrite /xi /Z. scalar_matrix. Qed.
  Theorem C71_refuted : exists N P K1 K3 MD MS MC (xi omega : 'cV[rat]_N) (X1 : 'M[rat]_(N, K1)) (X3 : 'M[rat]_(N, K3))
      (ZD : 'M[rat]_(N, MD)) (ZS : 'M[rat]_(N, MS)) (ZC : 'M[rat]_(N, MC)) (W0 : 'M[rat]_(MD + MS)) C (J H : 'M[rat]_(N, P))
      (W S : 'M[rat]_(MD + MS + MC)) V V' (b : 'I_(P + (K1 + K3))),
    let reported := reported_jacobians MC X1 X3 ZD ZS W0 C J H in
    let G := mean_G xi omega X1 X3 ZD ZS ZC J H in
    let G' := mean_G xi omega X1 X3 ZD ZS ZC reported.1 reported.2 in
    inverse_of C (iv_information (block_mx X1 0 0 X3) (block_mx ZD 0 0 ZS) W0) /\
    ZD^T *m xi = 0 /\ inverse_of W S /\
    inverse_of V (gmm_information W G) /\ inverse_of V' (gmm_information W G') /\
    moments_jacobian ZD ZS ZC X1 X3 J H xi omega G /\
    parameter_covariances W S G V false b b = 2%:R^-1 /\
    parameter_covariances W S G' V' false b b = 2%:R^-1 + 3%:R^-1.
  Proof.
    exists 2%N, 1%N, 1%N, 0%N, 1%N, 1%N, 1%N, xi, omega, X1, X3, Z, Z, Z, 1%:M, C, J, H, 1%:M, 1%:M, V, V', (rshift 1 (lshift 0 ord0)).
    split; first exact: beta_C. split; first exact: beta_first_order. split; first exact: mulmx1.
    split; first exact: beta_V. split; first exact: beta_V'. split; first exact: mean_G_correct. exact: beta_variances.
  Qed.
  Print Assumptions C71_refuted.
  (** The hypotheses of the theorems above hold for these data. *)
  Example C71_applies : inverse_of V (gmm_information 1%:M G) /\ inverse_of V' (gmm_information 1%:M G').
  Proof. split; [exact: beta_V|exact: beta_V']. Qed.
End Beta.
