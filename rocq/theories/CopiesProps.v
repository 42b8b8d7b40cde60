(** Theorems about data in which each row occurs several times: C151. *)
From mathcomp Require Import all_ssreflect all_algebra.
From Verif Require Import StatsModel StatsSpec StatsProofs EfficModel SolveModel CopiesSpec CopiesProofs.
Set Implicit Arguments.
Unset Strict Implicit.
Unset Printing Implicit Defensive.
Import GRing.Theory Num.Theory.
Local Open Scope ring_scope.


(** Linear parameters are the same, and residuals are those of the rows that were copied. *)
Theorem C151_estimates (F : realFieldType) k N N' (original : 'I_N' -> 'I_N) (copy : 'I_N' -> 'I_k) E K (q : 'I_E -> nat)
    (X : forall e : 'I_E, 'M[F]_(N, K)) (Z : forall e, 'M[F]_(N, q e)) (W : 'M[F]_(\sum_e q e)) (A A' : 'M[F]_K) (y : forall e : 'I_E, 'cV[F]_N) :
  (0 < k)%N -> copies original copy ->
  let X' e := copied original (X e) in let Z' e := copied original (Z e) in let y' e := copied original (y e) in
  inverse_of A (iv_information (\mxcol_e X e) (block_diag Z) W) -> inverse_of A' (iv_information (\mxcol_e X' e) (block_diag Z') W) ->
  stacked_parameters X' Z' W A' y' = stacked_parameters X Z W A y /\
  forall e, stacked_residuals X' Z' W A' y' e = copied original (stacked_residuals X Z W A y e).
Proof.
  move=> Hk C X' Z' y' I I'.
  have EP : stacked_parameters X' Z' W A' y' = stacked_parameters X Z W A y.
    exact: (scaled_parameters (k_neq0 F Hk) (stacked_copies C Z X) (stacked_copies C Z y) I I').
  split=> // e. rewrite !residual_split. apply/matrixP => n j.
  rewrite mxE [in RHS]mxE [in RHS]mxE. congr (_ + _); first by rewrite mxE.
  rewrite mxE [in RHS]mxE; congr (- _). rewrite -/(stacked_parameters X' Z' W A' y') EP. rewrite !mxE. apply: eq_bigr => m _. by rewrite mxE.
Qed.
Print Assumptions C151_estimates.

(** What the first weighting matrix inverts is the same. *)
Theorem C151_initial_weights (F : realFieldType) k N N' (original : 'I_N' -> 'I_N) (copy : 'I_N' -> 'I_k) MD MS MC
    (ZD : 'M[F]_(N, MD)) (ZS : 'M[F]_(N, MS)) (ZC : 'M[F]_(N, MC)) :
  (0 < k)%N -> copies original copy ->
  two_stage_matrix (copied original ZD) (copied original ZS) (copied original ZC) = two_stage_matrix ZD ZS ZC.
Proof.
  move=> Hk C. rewrite /two_stage_matrix.
  by have S := fun m (Z : 'M[F]_(N, m)) => scaled_product Hk C Z Z; rewrite /over in S; rewrite !S.
Qed.
Print Assumptions C151_initial_weights.

(** Covariances of moments are the same if they are unadjusted, robust, or clustered by IDs that differ between copies, but k times as
    large if copies are in the same cluster. *)
Theorem C151_moment_covariances (F : realFieldType) k N N' (original : 'I_N' -> 'I_N) (copy : 'I_N' -> 'I_k) E (q : 'I_E -> nat)
    (u : 'I_E -> 'cV[F]_N) (Z : forall e, 'M[F]_(N, q e)) (center : bool) :
  (0 < k)%N -> copies original copy ->
  let u' e := copied original (u e) in let Z' e := copied original (Z e) in
  moment_covariances u' Z' (Unadjusted _) center = moment_covariances u Z (Unadjusted _) center /\
  moment_covariances u' Z' (Robust _) center = moment_covariances u Z (Robust _) center /\
  forall (T : eqType) (ids : 'I_N -> T),
    moment_covariances u' Z' (Clustered (fun n => (ids (original n), copy n))) center = moment_covariances u Z (Clustered ids) center /\
    moment_covariances u' Z' (Clustered (fun n => ids (original n))) center = k%:R *: moment_covariances u Z (Clustered ids) center.
Proof.
  move=> Hk C u' Z'.
  have EG : (if center then centered (gmm_moments u' Z') else gmm_moments u' Z') =
            copied original (if center then centered (gmm_moments u Z) else gmm_moments u Z).
    by rewrite moments_copies; case: center => //; rewrite (centered_copies Hk C).
  rewrite /moment_covariances EG; set g := if center then _ else _. split; [|split].
  - congr symmetrised. apply/matrixP => i j. rewrite [LHS]mxE [RHS]mxE [X in _ * X]mxE [X in _ = _ * X]mxE.
    by rewrite (error_covariance_copies Hk C) (product_copies C) scalerA [_ * k%:R]mulrC -scalerA [X in _ * X = _]mxE [LHS]mulrA (over_copies F Hk C).
  - by rewrite (outer_copies C) scalerA (over_copies F Hk C).
  - move=> T ids. split; first by rewrite (new_clusters C) scalerA (over_copies F Hk C).
    by rewrite (same_clusters C) scalerA mulrA (over_copies F Hk C) mulrC -scalerA /symmetrised tr_scaled -scalerDr !scalerA mulrC.
Qed.
Print Assumptions C151_moment_covariances.

(** Averaged moments are the same, so objectives are, or k times as large if they are scaled by the number of observations. *)
Theorem C151_objective (F : realFieldType) k N N' (original : 'I_N' -> 'I_N) (copy : 'I_N' -> 'I_k) E (q : 'I_E -> nat)
    (u : 'I_E -> 'cV[F]_N) (Z : forall e, 'M[F]_(N, q e)) (W : 'M[F]_(\sum_e q e)) :
  (0 < k)%N -> copies original copy ->
  let g := column_mean (gmm_moments u Z) in let g' := column_mean (gmm_moments (fun e => copied original (u e)) (fun e => copied original (Z e))) in
  g' = g /\ gmm_objective false N' W g' = gmm_objective false N W g /\ gmm_objective true N' W g' = k%:R * gmm_objective true N W g.
Proof.
  move=> Hk C g g'. have EG : g' = g by rewrite /g' moments_copies (column_mean_copies Hk C).
  split=> //. rewrite EG /gmm_objective. split=> //. by rewrite (rows_copies C) natrM mulrA [LHS]mulrC.
Qed.
Print Assumptions C151_objective.

(** Averaged Jacobians of moments are the same. *)
Theorem C151_moment_jacobians (F : realFieldType) k N N' (original : 'I_N' -> 'I_N) (copy : 'I_N' -> 'I_k) P K1 K3 MD MS MC
    (xi omega : 'cV[F]_N) (X1 : 'M[F]_(N, K1)) (X3 : 'M[F]_(N, K3)) (ZD : 'M[F]_(N, MD)) (ZS : 'M[F]_(N, MS)) (ZC : 'M[F]_(N, MC)) (JD JS : 'M[F]_(N, P)) :
  (0 < k)%N -> copies original copy ->
  mean_G (copied original xi) (copied original omega) (copied original X1) (copied original X3) (copied original ZD) (copied original ZS) (copied original ZC)
    (copied original JD) (copied original JS) = mean_G xi omega X1 X3 ZD ZS ZC JD JS.
Proof.
  move=> Hk C.
  have R1 a b (U : 'M[F]_(N, a)) (V : 'M[F]_(N, b)) : row_mx (copied original U) (copied original V) = copied original (row_mx U V).
    by apply/matrixP => n i; rewrite !mxE; case: split => j; rewrite mxE.
  have O1 a (U : 'M[F]_(N, a)) : - copied original U = copied original (- U) by apply/matrixP => n i; rewrite !mxE.
  have A1 a (U V : 'M[F]_(N, a)) : copied original U + copied original V = copied original (U + V) by apply/matrixP => n i; rewrite !mxE.
  have Z1 a : 0 = copied original (0 : 'M[F]_(N, a)) by apply/matrixP => n i; rewrite !mxE.
  have T1 a (v : 'cV[F]_N) (U : 'M[F]_(N, a)) : times (copied original v) (copied original U) = copied original (times v U) by apply/matrixP => n i; rewrite !mxE.
  rewrite /mean_G !O1 !T1 (Z1 K1) (Z1 K3) !A1 !R1 !(jacobian_copies Hk C). done.
Qed.
Print Assumptions C151_moment_jacobians.

(** Squared standard errors, which are variances over the number of observations, are divided by k, unless copies are in the same clusters:
    then they are the same, with weights that are the same and with those that are updated, which are divided by k. *)
Theorem C151_standard_errors (F : realFieldType) k N N' (original : 'I_N' -> 'I_N) (copy : 'I_N' -> 'I_k) M P (W S : 'M[F]_M) (G : 'M[F]_(M, P)) (A : 'M[F]_P) (p : 'I_P) :
  (0 < k)%N -> copies original copy -> A *m gmm_information W G = 1%:M ->
  (forall unadjusted, over N' * parameter_covariances W S G A unadjusted p p = k%:R^-1 * (over N * parameter_covariances W S G A unadjusted p p)) /\
  forall c A', c != 0 -> A' *m gmm_information (c *: W) G = 1%:M ->
    over N' * parameter_covariances (c *: W) (k%:R *: S) G A' false p p = over N * parameter_covariances W S G A false p p.
Proof.
  move=> Hk C I. have EO := over_copies F Hk C. have k0 := k_neq0 F Hk.
  split; first by move=> b; rewrite -EO [over N' * k%:R]mulrC -mulrA mulKf.
  move=> c A' c0 I'. rewrite (scaled_covariances (S := S) (d := k%:R) (unadjusted := false) c0 erefl erefl _ I I') //.
  by rewrite mxE mulrA EO.
Qed.
Print Assumptions C151_standard_errors.

(** Entries of concrete matrices. *)
Ltac entries := do 9 rewrite ?mxE ?big_ord_recl ?big_ord0.
Ltac scalar_matrix := apply/matrixP => i j; rewrite !ord1; entries; apply/eqP; vm_compute; reflexivity.

(** Two rows, each of which occurs twice. *)
Definition twice_original (n : 'I_4) : 'I_2 := inord (n %/ 2).
Definition twice_copy (n : 'I_4) : 'I_2 := inord (n %% 2).
Example C151_applies : copies twice_original twice_copy /\
  inverse_of (5%:R^-1)%:M (iv_information (\matrix_(i < 2, j < 1) (i.+1)%:R : 'M[rat]_(2, 1)) 1%:M 1%:M).
Proof.
  split.
  - exists (fun p : 'I_2 * 'I_2 => inord (p.1 * 2 + p.2) : 'I_4).
    + move=> n. apply: val_inj => /=. rewrite inordK !inordK ?ltn_mod //; try by rewrite ltn_divLR.
      * by rewrite -divn_eq.
      * by rewrite -divn_eq.
    + move=> [i c]. rewrite /twice_original /twice_copy /= inordK; last by case: i c => [[|[|i]] Hi] [[|[|c]] Hc].
      congr (_, _); apply: val_inj => /=.
      * by rewrite divnMDl // divn_small ?addn0 ?inordK.
      * by rewrite modnMDl modn_small ?inordK.
  - rewrite /inverse_of /iv_information trmx1 !mul1mx. scalar_matrix.
Qed.
