(** Properties C104-C106: the initial weighting matrix, GMM steps and the reduced Hessian. *)
Set Warnings "-notation-overridden,-ambiguous-paths".
From mathcomp Require Import all_ssreflect all_algebra.
From Verif Require Import StatsModel StatsSpec StatsProofs SolveModel SolveSpec SolveProofs SolveWitness.
Set Implicit Arguments.
Unset Strict Implicit.
Unset Printing Implicit Defensive.
Import Order.TTheory GRing.Theory Num.Theory.
Local Open Scope ring_scope.

(* ---------- C104 ---------- *)

(** With the default weighting matrix, linear parameters are two-stage least squares estimates of demand on demand-side
    instruments and of supply on supply-side instruments, and nothing else is. *)
Theorem C104_two_stage (F : realFieldType) N K1 K3 MD MS MC (X1 : 'M[F]_(N, K1)) (X3 : 'M[F]_(N, K3)) (ZD : 'M[F]_(N, MD))
    (ZS : 'M[F]_(N, MS)) (ZC : 'M[F]_(N, MC)) W C (delta costs : 'cV[F]_N) beta gamma :
  (0 < N)%N -> inverse_of W (two_stage_matrix ZD ZS ZC) ->
  inverse_of C (iv_information (linear_X X1 X3) (linear_Z ZD ZS) (linear_W W)) ->
  (iv_parameters (linear_X X1 X3) (linear_Z ZD ZS) (linear_W W) C (col_mx delta costs) = col_mx beta gamma <->
   two_stage X1 ZD delta beta /\ two_stage X3 ZS costs gamma).
Proof. exact: initial_estimates. Qed.
Print Assumptions C104_two_stage.

(** So estimates of demand in the first step do not depend on the supply side or on covariance restrictions. *)
Theorem C104_separate (F : realFieldType) N K1 MD K3 MS MC K3' MS' MC' (X1 : 'M[F]_(N, K1)) (ZD : 'M[F]_(N, MD)) (delta : 'cV[F]_N)
    (X3 : 'M[F]_(N, K3)) (ZS : 'M[F]_(N, MS)) (ZC : 'M[F]_(N, MC)) W C costs
    (X3' : 'M[F]_(N, K3')) (ZS' : 'M[F]_(N, MS')) (ZC' : 'M[F]_(N, MC')) W' C' costs' :
  (0 < N)%N -> inverse_of W (two_stage_matrix ZD ZS ZC) -> inverse_of W' (two_stage_matrix ZD ZS' ZC') ->
  inverse_of C (iv_information (linear_X X1 X3) (linear_Z ZD ZS) (linear_W W)) ->
  inverse_of C' (iv_information (linear_X X1 X3') (linear_Z ZD ZS') (linear_W W')) ->
  usubmx (iv_parameters (linear_X X1 X3) (linear_Z ZD ZS) (linear_W W) C (col_mx delta costs)) =
  usubmx (iv_parameters (linear_X X1 X3') (linear_Z ZD ZS') (linear_W W') C' (col_mx delta costs')).
Proof. exact: initial_separate. Qed.
Print Assumptions C104_separate.

(** With as many instruments as linear parameters, the weighting matrix does not matter, whatever it is. *)
Theorem C104_exactly_identified (F : realFieldType) N M (X Z : 'M[F]_(N, M)) W C (y : 'cV[F]_N) :
  Z^T *m X \in unitmx -> inverse_of C (iv_information X Z W) ->
  iv_parameters X Z W C y = invmx (Z^T *m X) *m (Z^T *m y).
Proof. exact: exactly_identified. Qed.
Print Assumptions C104_exactly_identified.

Definition ten := 10%:R^-1 : rat.
Example C104_applies : let X : 'cV[rat]_2 := column2 1 2%:R in let Z : 'M[rat]_2 := 1%:M in let ZC := column2 1 1 in
  let W := block_mx (block_mx 2%:R%:M 0 0 2%:R%:M) 0 0 1%:M in
  inverse_of W (two_stage_matrix Z Z ZC) /\
  inverse_of (block_mx ten%:M 0 0 ten%:M) (iv_information (linear_X X X) (linear_Z Z Z) (linear_W W)).
Proof.
  move=> X Z ZC W. split.
  - rewrite /inverse_of /two_stage_matrix /W !mulmx_block !(mulmx0, mul0mx, addr0, add0r) /Z trmx1 mul1mx.
    rewrite -scalemxAr mulmx1 -mul_mx_scalar -scalar_mxM.
    have -> : (2%:R * 2%:R^-1 : rat) = 1 by [].
    rewrite -!scalar_mx_block mul1mx.
    have -> : (2%:R^-1 : rat) *: (ZC^T *m ZC) = 1%:M by apply/matrixP => i j; rewrite !ord1; entries; apply/eqP; vm_compute.
    by rewrite -scalar_mx_block.
  - rewrite /inverse_of /iv_information /linear_W /W block_mxKul /linear_X /linear_Z.
    rewrite !tr_block_mx !trmx0 !mulmx_block !(mulmx0, mul0mx, addr0, add0r) tr_block_mx !trmx0.
    rewrite !mulmx_block !(mulmx0, mul0mx, addr0, add0r) /Z trmx1 mul1mx.
    have -> : ten%:M *m (X^T *m 2%:R%:M *m X) = 1%:M.
    { apply/matrixP => i j; rewrite !ord1 mul_mx_scalar -scalemxAl mul_scalar_mx; entries; apply/eqP; vm_compute; reflexivity. }
    by rewrite -scalar_mx_block.
Qed.

(* ---------- C105 ---------- *)

(** One-step GMM without an initial update optimizes once with the given weighting matrix, whatever the type of weighting matrices. *)
Theorem C105_one_step Wt Theta Results WType P optimize estimate updated (type : WType) (W : Wt) (theta : Theta) :
  let theta1 := if (0 < P)%N then optimize 1%N W theta else theta in
  solve_steps P true optimize estimate updated type false W theta = Some (StepResults 1 W theta1 (estimate W theta1 : Results)).
Proof. exact: solve_one_step. Qed.
Print Assumptions C105_one_step.

(** Two-step GMM optimizes again, from what it found first, with the weighting matrix of first-step results. *)
Theorem C105_two_steps Wt Theta Results WType P optimize estimate updated (type : WType) (W : Wt) (theta : Theta) :
  let theta1 := if (0 < P)%N then optimize 1%N W theta else theta in
  let W1 := updated type (estimate W theta1) in
  let theta2 := if (0 < P)%N then optimize 2%N W1 theta1 else theta1 in
  solve_steps P false optimize estimate updated type false W theta = Some (StepResults 2 W1 theta2 (estimate W1 theta2 : Results)).
Proof. exact: solve_two_steps. Qed.
Print Assumptions C105_two_steps.

(** An initial update is the same as specifying the weighting matrix that initial parameter values come with.  It always happens
    if there are micro moments and no weighting matrix, never by default otherwise, and as was requested if it was. *)
Theorem C105_initial_update Wt Theta Results WType P one_step optimize estimate updated (type : WType) (W : Wt) (theta : Theta) :
  solve_steps P one_step optimize (estimate : Wt -> Theta -> Results) updated type true W theta =
  solve_steps P one_step optimize estimate updated type false (updated type (estimate W theta)) theta /\
  (forall given b, validate_initial_update given true false = Some b -> b = true) /\
  (forall micro specified, micro && ~~ specified = false -> validate_initial_update None micro specified = Some false) /\
  (forall micro specified b, validate_initial_update (Some b) micro specified <> None ->
     validate_initial_update (Some b) micro specified = Some b).
Proof.
  split; [exact: solve_update|split; [|split]].
  - move=> given b H. exact: (update_required H).
  - by move=> micro specified H; rewrite update_default H.
  - exact: update_given.
Qed.
Print Assumptions C105_initial_update.

(** So the claim that the type of weighting matrices has no effect on one-step GMM is false with an initial update: for one
    equation, two-stage least squares weights and default centering, estimates are 35/13 for robust and 2 for unadjusted matrices. *)
Theorem C105_refuted : exists W : 'M[rat]_2, inverse_of W (3%:R^-1 *: (instruments^T *m instruments)) /\
  let solve robust := solve_steps 0 true (fun _ _ theta => theta) one_equation_estimate one_equation_weights robust true W tt in
  (exists r, solve true = Some r /\ step_estimates r = (35%:R / 13%:R)%:M) /\
  (exists r, solve false = Some r /\ step_estimates r = 2%:R%:M).
Proof.
  exists (3%:R%:M). split; [exact: instruments_weights|]. split.
  - eexists; split; [rewrite solve_update first_estimate solve_one_step; reflexivity|exact: robust_estimate].
  - eexists; split; [rewrite solve_update first_estimate solve_one_step; reflexivity|exact: unadjusted_estimate].
Qed.
Print Assumptions C105_refuted.

(** Steps with numbers in place of matrices: what is optimized is the weight plus the step. *)
Example C105_applies : validate_initial_update None true false = Some true /\ validate_initial_update (Some false) true false = None /\
  solve_steps 1 false (fun step W theta => step + W + theta)%N (fun W theta => W * theta)%N (fun type r => type + r)%N 5%N false 2%N 3%N =
  Some (StepResults 2 17%N 25%N 425%N).
Proof. by []. Qed.

(* ---------- C106 ---------- *)

(** The reduced Hessian has the curvature of the Hessian in directions that do not change parameters at their bounds... *)
Theorem C106_curvature (F : realFieldType) P (lb ub : 'I_P -> option F) (theta : 'cV[F]_P) (H : 'M[F]_P) w : free_direction lb ub theta w ->
  curvature (reduced_hessian lb ub theta H) w = curvature H w.
Proof. exact: reduced_free. Qed.
Print Assumptions C106_curvature.

(** ... so it is positive semidefinite exactly if the Hessian is in all such directions, and the second-order condition is not about others. *)
Theorem C106_second_order (F : realFieldType) P (lb ub : 'I_P -> option F) (theta : 'cV[F]_P) (H : 'M[F]_P) :
  (forall w, 0 <= curvature (reduced_hessian lb ub theta H) w) <-> (forall w, free_direction lb ub theta w -> 0 <= curvature H w).
Proof. exact: reduced_psd. Qed.
Print Assumptions C106_second_order.

(** Each parameter at a bound gives a zero eigenvalue, so that the reduced Hessian is never positive definite with one. *)
Theorem C106_zero (F : realFieldType) P (lb ub : 'I_P -> option F) (theta : 'cV[F]_P) (H : 'M[F]_P) p : ~ interior (lb p) (ub p) (theta p 0) ->
  reduced_hessian lb ub theta H *m delta_mx p (0 : 'I_1) = 0.
Proof. exact: reduced_zero. Qed.
Print Assumptions C106_zero.

(** A parameter at its lower bound of zero, where the Hessian is indefinite, and one without bounds. *)
Example C106_applies : let lb (p : 'I_2) : option rat := if val p == 0%N then Some 0 else None in let ub (p : 'I_2) : option rat := None in
  let theta := column2 0 1 in let H := square (- 1) 0 0 1 in
  ~ interior (lb 0) (ub 0) (theta 0 0) /\ free_direction lb ub theta (column2 0 3%:R) /\ curvature H (column2 1 0) < 0 /\ forall w, 0 <= curvature (reduced_hessian lb ub theta H) w.
Proof.
  move=> lb ub theta H.
  have B : ~ interior (lb 0) (ub 0) (theta 0 0).
  { move=> [/(_ 0 erefl) L _]. rewrite /theta mxE in L. by []. }
  have D : forall w, free_direction lb ub theta w <-> w 0 0 = 0.
  { move=> w; split=> [/(_ 0 B) //|E]. move=> -[[|[|p]] Hp] // N; first by rewrite -E; congr (w _ _); apply/val_inj.
    exfalso; apply: N. by split. }
  split; [by []|split; [|split]].
  - apply/D. by rewrite mxE.
  - rewrite curvatureE. entries. by [].
  - apply/(reduced_psd lb ub theta H) => w /D E. rewrite curvatureE. entries. rewrite !E /=.
    rewrite !(mul0r, mulr0, add0r, addr0, mulr1) /=. exact: sqr_ge0.
Qed.
