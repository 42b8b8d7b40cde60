(** Properties of weighting matrices, instruments, exactly identified problems and tests of restrictions: C134 and C135. *)
Set Warnings "-notation-overridden,-ambiguous-paths".
From mathcomp Require Import all_ssreflect all_algebra.
From Verif Require Import StatsModel StatsSpec StatsProofs EfficModel EfficSpec EfficProofs.
Set Implicit Arguments.
Unset Strict Implicit.
Unset Printing Implicit Defensive.
Import Order.TTheory GRing.Theory Num.Theory.
Local Open Scope ring_scope.

(** Entries of concrete matrices. *)
Ltac entries := do 9 rewrite ?mxE ?big_ord_recl ?big_ord0.
Ltac scalar_matrix := apply/matrixP => i j; rewrite !ord1; entries; apply/eqP; vm_compute; reflexivity.

(* ---------- C134 ---------- *)

(** Robust or clustered covariances of estimates with any weighting matrix are at least those of estimates with the inverse of
    moment covariances, and so is each squared standard error. *)
Theorem C134_optimal_weights (F : realFieldType) M P (S W Wo : 'M[F]_M) (G : 'M[F]_(M, P)) (V Vo : 'M[F]_P) unadjusted :
  symmetric S -> positive_semidefinite S -> symmetric W -> inverse_of Wo S ->
  inverse_of V (gmm_information W G) -> inverse_of Vo (gmm_information Wo G) ->
  let covariances := parameter_covariances W S G V false in
  let optimal := parameter_covariances Wo S G Vo unadjusted in
  at_least covariances optimal /\ forall p, optimal p p <= covariances p p.
Proof.
  move=> SS PS SW IW IV IVo covariances optimal.
  have H : at_least covariances optimal by apply: at_least_difference; exact: optimal_weights_efficient.
  split=> // p. exact: at_least_diagonal.
Qed.
Print Assumptions C134_optimal_weights.

(** Moments added to others do not increase covariances when both weighting matrices are optimal. *)
Theorem C134_additional_moments (F : realFieldType) M1 M2 P (S11 : 'M[F]_M1) (S12 : 'M[F]_(M1, M2)) (S22 : 'M[F]_M2)
    (G1 : 'M[F]_(M1, P)) (G2 : 'M[F]_(M2, P)) (W1 : 'M[F]_M1) (W : 'M[F]_(M1 + M2)) (V1 V : 'M[F]_P) unadjusted :
  let S := block_mx S11 S12 S12^T S22 in let G := col_mx G1 G2 in
  symmetric S -> positive_semidefinite S -> inverse_of W1 S11 -> inverse_of W S ->
  inverse_of V1 (gmm_information W1 G1) -> inverse_of V (gmm_information W G) ->
  let fewer := parameter_covariances W1 S11 G1 V1 unadjusted in
  let more := parameter_covariances W S G V unadjusted in
  at_least fewer more /\ forall p, more p p <= fewer p p.
Proof.
  move=> S G SS PS I1 IW IV1 IV fewer more.
  have H : at_least fewer more by apply: at_least_difference; exact: more_moments_help.
  split=> // p. exact: at_least_diagonal.
Qed.
Print Assumptions C134_additional_moments.

(** Optimal instruments for errors with covariances Omega, the inverse of Omega times Jacobians of errors, which is what
    [compute_optimal_instruments] builds, give covariances that are no larger than those with any other instruments and any weights. *)
Theorem C134_optimal_instruments (F : realFieldType) N E P M (Omega Oi : 'M[F]_E) (J : 'I_N -> 'M[F]_(E, P)) (Z : 'I_N -> 'M[F]_(E, M))
    (W : 'M[F]_M) (V Wo Vo : 'M[F]_P) :
  symmetric Omega -> positive_semidefinite Omega -> inverse_of Oi Omega -> symmetric W -> symmetric Wo ->
  let Zo n := Oi *m J n in
  inverse_of V (gmm_information W (summed_jacobian J Z)) -> inverse_of Vo (gmm_information Wo (summed_jacobian J Zo)) ->
  let covariances := parameter_covariances W (summed_covariances Omega Z) (summed_jacobian J Z) V false in
  let optimal := parameter_covariances Wo (summed_covariances Omega Zo) (summed_jacobian J Zo) Vo false in
  at_least covariances optimal /\ forall p, optimal p p <= covariances p p.
Proof.
  move=> SO PO IO SW SWo Zo IV IVo covariances optimal.
  have H : at_least covariances optimal by apply: at_least_difference; exact: optimal_instruments_efficient.
  split=> // p. exact: at_least_diagonal.
Qed.
Print Assumptions C134_optimal_instruments.

(** With as many instruments as parameters, estimates, moments and covariances do not depend on the weighting matrix:
    estimates solve all moment conditions, and covariances are those of the solution. *)
Theorem C134_exactly_identified (F : realFieldType) R K (X Z : 'M[F]_(R, K)) (W A B : 'M[F]_K) (y : 'cV[F]_R) (S V : 'M[F]_K) :
  let G := - (R%:R^-1 *: (Z^T *m X)) in
  inverse_of A (iv_information X Z W) -> inverse_of B (Z^T *m X) -> symmetric W -> symmetric S -> (0 < R)%N ->
  inverse_of V (gmm_information W G) ->
  iv_parameters X Z W A y = B *m (Z^T *m y) /\ Z^T *m iv_residuals X Z W A y = 0 /\
  parameter_covariances W S G V false = R%:R ^+ 2 *: (B *m S *m B^T).
Proof.
  move=> G IA IB SW SS HR IV. split; [|split].
  - exact: exact_parameters.
  - exact: exact_moments IA IB.
  - have HR' : R%:R != 0 :> F by rewrite pnatr_eq0 -lt0n.
    have IG : inverse_of (- (R%:R *: B)) G.
      by rewrite /inverse_of /G mulNmx mulmxN opprK -scalemxAl -scalemxAr scalerA divff // scale1r.
    rewrite (exact_covariances SW SS IV IG).
    by rewrite [(- _)^T]raddfN /= [(_ *: _)^T]linearZ /= mulNmx mulNmx mulmxN opprK -!scalemxAl -scalemxAr scalerA expr2.
Qed.
Print Assumptions C134_exactly_identified.

Definition line : 'M[rat]_(2, 1) := \matrix_(i, j) (i.+1)%:R.
Definition first_only : 'M[rat]_2 := \matrix_(i, j) (if (i == 0) && (j == 0) then 1 else 0).
Example C134_applies : let S : 'M[rat]_2 := 1%:M in
  symmetric S /\ positive_semidefinite S /\ symmetric first_only /\ inverse_of 1%:M S /\
  inverse_of 1%:M (gmm_information first_only line) /\ inverse_of (5%:R^-1)%:M (gmm_information 1%:M line).
Proof.
  split; [|split; [|split; [|split; [|split]]]].
  - exact: trmx1.
  - move=> x. rewrite /quadratic mulmx1. exact: square_ge0.
  - apply/matrixP => i j. by rewrite !mxE andbC.
  - by rewrite /inverse_of mulmx1.
  - rewrite /inverse_of /gmm_information mul1mx. scalar_matrix.
  - rewrite /inverse_of /gmm_information mulmx1. scalar_matrix.
Qed.
Example C134_moments_apply : let S : 'M[rat]_(1 + 1) := block_mx 1%:M 0 0^T 1%:M in let G := col_mx 1%:M 2%:R%:M : 'M[rat]_(1 + 1, 1) in
  symmetric S /\ positive_semidefinite S /\ inverse_of 1%:M (1%:M : 'M[rat]_1) /\ inverse_of 1%:M S /\
  inverse_of 1%:M (gmm_information 1%:M (1%:M : 'M[rat]_1)) /\ inverse_of (5%:R^-1)%:M (gmm_information 1%:M G).
Proof.
  move=> S G. have ES : S = 1%:M by rewrite /S trmx0 -scalar_mx_block. rewrite ES.
  split; [|split; [|split; [|split; [|split]]]].
  - exact: trmx1.
  - move=> x. rewrite /quadratic mulmx1. exact: square_ge0.
  - by rewrite /inverse_of mulmx1.
  - by rewrite /inverse_of mulmx1.
  - by rewrite /inverse_of /gmm_information trmx1 !mulmx1.
  - rewrite /inverse_of /gmm_information mulmx1 /G tr_col_mx mul_row_col !tr_scalar_mx. scalar_matrix.
Qed.
Example C134_instruments_apply : let Omega : 'M[rat]_2 := 2%:R%:M in let Oi : 'M[rat]_2 := (2%:R^-1)%:M in
  let J (n : 'I_2) := line in let Z (n : 'I_2) : 'M[rat]_(2, 1) := const_mx 1 in
  symmetric Omega /\ positive_semidefinite Omega /\ inverse_of Oi Omega /\
  inverse_of (36%:R^-1)%:M (gmm_information 1%:M (summed_jacobian J Z)) /\
  inverse_of (25%:R^-1)%:M (gmm_information 1%:M (summed_jacobian J (fun n => Oi *m J n))).
Proof.
  split; [|split; [|split; [|split]]].
  - exact: tr_scalar_mx.
  - move=> x. rewrite /quadratic mul_mx_scalar -scalemxAl [X in _ <= X]mxE. apply: mulr_ge0 => //. exact: square_ge0.
  - rewrite /inverse_of -scalar_mxM. by congr (scalar_mx _); apply/eqP; vm_compute.
  - rewrite /inverse_of /gmm_information /summed_jacobian mulmx1 !big_ord_recl !big_ord0. scalar_matrix.
  - rewrite /inverse_of /gmm_information /summed_jacobian mulmx1 !big_ord_recl !big_ord0 !mul_scalar_mx. scalar_matrix.
Qed.
Example C134_exact_applies : let X : 'M[rat]_1 := 2%:R%:M in let W : 'M[rat]_1 := 3%:R%:M in let G := - ((1%N)%:R^-1 *: (1%:M^T *m X)) in
  inverse_of (12%:R^-1)%:M (iv_information X 1%:M W) /\ inverse_of (2%:R^-1)%:M (1%:M^T *m X) /\ symmetric W /\
  inverse_of (12%:R^-1)%:M (gmm_information W G).
Proof.
  split; [|split; [|split]].
  - rewrite /inverse_of /iv_information. scalar_matrix.
  - rewrite /inverse_of. scalar_matrix.
  - exact: tr_scalar_mx.
  - rewrite /inverse_of /gmm_information. scalar_matrix.
Qed.

(* ---------- C135 ---------- *)

(** In linear problems, the three tests of linear restrictions R b = q are the same function of data when the optimal weighting matrix
    is shared: the distance statistic of restricted and unrestricted estimates, however either objective is scaled, the Wald
    statistic at unrestricted estimates, and the Lagrange multiplier statistic at restricted estimates, with Jacobians with
    respect to all parameters. *)
Theorem C135_tests_agree (F : realFieldType) N K M Q (X : 'M[F]_(N, K)) (Z : 'M[F]_(N, M)) (W S : 'M[F]_M) (C Vi : 'M[F]_K) (y : 'cV[F]_N)
    (R : 'M[F]_(Q, K)) (q : 'cV[F]_Q) (I : 'M[F]_Q) (restricted : 'cV[F]_K) (unadjusted s s' : bool) :
  (0 < N)%N -> symmetric S -> positive_semidefinite W -> inverse_of W S -> inverse_of C (iv_information X Z W) ->
  let g := linear_moments X Z y in let G := linear_jacobian X Z in inverse_of Vi (gmm_information W G) ->
  let V := parameter_covariances W S G Vi unadjusted in inverse_of I (wald_matrix V R) ->
  restricted_minimiser R q (fun b => gmm_objective s N W (g b)) restricted ->
  let estimates := iv_parameters X Z W C y in
  let wald := wald_statistic N I (R *m estimates - q) in
  distance_statistic N s (gmm_objective s N W (g restricted)) s' (gmm_objective s' N W (g estimates)) = wald /\
  lm_statistic N W (g restricted) G V = wald.
Proof. exact: tests_agree. Qed.
Print Assumptions C135_tests_agree.

(** Fixing some parameters at q is such a restriction.  Results of the restricted problem, in which these are not among parameters,
    have a Lagrange multiplier statistic of zero whatever the data. *)
Theorem C135_fixed_parameters (F : realFieldType) N K1 K2 M (X1 : 'M[F]_(N, K1)) (X2 : 'M[F]_(N, K2)) (Z : 'M[F]_(N, M)) (W : 'M[F]_M)
    (C1 V1 : 'M[F]_K1) (y : 'cV[F]_N) (q : 'cV[F]_K2) s :
  symmetric W -> positive_semidefinite W -> inverse_of C1 (iv_information X1 Z W) ->
  let yq := y - X2 *m q in let b1 := iv_parameters X1 Z W C1 yq in let g := linear_moments X1 Z yq b1 in
  linear_moments (row_mx X1 X2) Z y (col_mx b1 q) = g /\
  restricted_minimiser (row_mx 0 1%:M) q (fun b => gmm_objective s N W (linear_moments (row_mx X1 X2) Z y b)) (col_mx b1 q) /\
  lm_statistic N W g (linear_jacobian X1 Z) V1 = 0.
Proof.
  move=> SW PW IC yq b1 g. split; [|split].
  - exact: fixed_moments.
  - exact: fixed_restricted.
  - exact: fixed_lm_zero.
Qed.
Print Assumptions C135_fixed_parameters.

(** So the Lagrange multiplier statistic of results of a restricted problem is not that of its restrictions. *)
Theorem C135_lm_of_restricted_results_refuted :
  ~ (forall N K1 K2 M (X1 : 'M[rat]_(N, K1)) (X2 : 'M[rat]_(N, K2)) (Z : 'M[rat]_(N, M)) (W S : 'M[rat]_M)
       (C1 V1 : 'M[rat]_K1) (C : 'M[rat]_(K1 + K2)) (y : 'cV[rat]_N) (q : 'cV[rat]_K2) unadjusted,
     (0 < N)%N -> symmetric S -> positive_semidefinite W -> inverse_of W S -> inverse_of C1 (iv_information X1 Z W) ->
     inverse_of V1 (gmm_information W (linear_jacobian X1 Z)) -> inverse_of C (iv_information (row_mx X1 X2) Z W) ->
     let yq := y - X2 *m q in let g1 := linear_moments X1 Z yq (iv_parameters X1 Z W C1 yq) in
     lm_statistic N W g1 (linear_jacobian X1 Z) (parameter_covariances W S (linear_jacobian X1 Z) V1 unadjusted) =
     distance_statistic N true (gmm_objective true N W g1)
       true (gmm_objective true N W (linear_moments (row_mx X1 X2) Z y (iv_parameters (row_mx X1 X2) Z W C y)))).
Proof.
  pose X1 : 'M[rat]_(2, 1) := delta_mx 0 0. pose X2 : 'M[rat]_(2, 1) := delta_mx 1 0.
  have EX : (row_mx X1 X2)^T *m row_mx X1 X2 = 1%:M.
    apply/matrixP => i j. rewrite tr_row_mx mul_col_row. case: (split_ordP i) => k ->; case: (split_ordP j) => l ->; rewrite !ord1.
    - rewrite block_mxEul. entries. by apply/eqP; vm_compute.
    - rewrite block_mxEur. entries. by apply/eqP; vm_compute.
    - rewrite block_mxEdl. entries. by apply/eqP; vm_compute.
    - rewrite block_mxEdr. entries. by apply/eqP; vm_compute.
  have IC1 : inverse_of 1%:M (iv_information X1 1%:M 1%:M).
    rewrite /inverse_of /iv_information trmx1 !mul1mx mulmx1. scalar_matrix.
  have IC : inverse_of 1%:M (iv_information (row_mx X1 X2) 1%:M 1%:M).
    by rewrite /inverse_of /iv_information trmx1 !mul1mx mulmx1 EX.
  have IV : inverse_of 4%:R%:M (gmm_information 1%:M (linear_jacobian X1 1%:M)).
    rewrite /inverse_of /gmm_information /linear_jacobian trmx1 !mul1mx mulmx1. scalar_matrix.
  have P1 : positive_semidefinite (1%:M : 'M[rat]_2) by move=> x; rewrite /quadratic mulmx1; exact: square_ge0.
  move=> H. have {H} := H 2%N 1%N 1%N 2%N X1 X2 1%:M 1%:M 1%:M 1%:M 4%:R%:M 1%:M X2 0 true isT (trmx1 _ _) P1 (mulmx1 _) IC1 IV IC.
  cbv zeta. rewrite mulmx0 subr0 fixed_lm_zero // scaled_difference.
  have E1 : iv_parameters X1 1%:M 1%:M 1%:M X2 = 0.
    rewrite /iv_parameters trmx1 !mul1mx !mulmx1. scalar_matrix.
  have E2 : iv_parameters (row_mx X1 X2) 1%:M 1%:M 1%:M X2 = col_mx 0 1%:M.
    rewrite /iv_parameters trmx1 !mul1mx !mulmx1 tr_row_mx mul_col_mx. congr col_mx; scalar_matrix.
  rewrite E1 E2 /linear_moments mul_row_col !mulmx0 mulmx1 add0r !subr0 subrr !mulmx0 scaler0 trmx1 mul1mx.
  rewrite /quadratic !mulmx1 mulmx0 [X in _ - X]mxE subr0. entries. by move/eqP; vm_compute.
Qed.
Print Assumptions C135_lm_of_restricted_results_refuted.

Example C135_applies : let y : 'cV[rat]_2 := delta_mx 0 0 in
  symmetric (1%:M : 'M[rat]_2) /\ positive_semidefinite (1%:M : 'M[rat]_2) /\ inverse_of (5%:R^-1)%:M (iv_information line 1%:M 1%:M) /\
  inverse_of (4%:R / 5%:R)%:M (gmm_information 1%:M (linear_jacobian line 1%:M)) /\
  inverse_of (5%:R / 4%:R)%:M (wald_matrix (4%:R / 5%:R)%:M (1%:M : 'M[rat]_1)) /\
  restricted_minimiser (1%:M : 'M[rat]_1) 0 (fun b => gmm_objective true 2 1%:M (linear_moments line 1%:M y b)) 0.
Proof.
  split; [|split; [|split; [|split; [|split]]]].
  - exact: trmx1.
  - move=> x. rewrite /quadratic mulmx1. exact: square_ge0.
  - rewrite /inverse_of /iv_information trmx1 !mul1mx mulmx1. scalar_matrix.
  - rewrite /inverse_of /gmm_information /linear_jacobian trmx1 !mul1mx mulmx1. scalar_matrix.
  - rewrite /inverse_of /wald_matrix mul1mx trmx1 mulmx1 -scalar_mxM. by congr (scalar_mx _); apply/eqP; vm_compute.
  - by split=> [|b']; rewrite mul1mx // => ->.
Qed.
