(** Concrete estimates with different types of weighting matrices: one equation, three observations, two instruments. *)
Set Warnings "-notation-overridden,-ambiguous-paths".
From mathcomp Require Import all_ssreflect all_algebra.
From Verif Require Import StatsModel StatsSpec StatsProofs SolveModel SolveSpec SolveProofs.
Set Implicit Arguments.
Unset Strict Implicit.
Unset Printing Implicit Defensive.
Import Order.TTheory GRing.Theory Num.Theory.
Local Open Scope ring_scope.

(** Elements of concrete matrices over the rationals. *)
Ltac entries := do 9 rewrite ?mxE ?big_ord_recl ?big_ord0.
Definition square (a b c d : rat) : 'M[rat]_2 := \matrix_(i, j) (if val i == 0%N then (if val j == 0%N then a else b) else (if val j == 0%N then c else d)).
Definition column2 (a b : rat) : 'cV[rat]_2 := \col_i (if val i == 0%N then a else b).
Ltac decide_entries := entries; apply/eqP; vm_compute; reflexivity.
Ltac two_by_two := apply/matrixP => -[[|[|i]] Hi] -[[|[|j]] Hj] //; decide_entries.
Ltac two_by_one := apply/matrixP => -[[|[|i]] Hi] j; rewrite // ord1; decide_entries.
Ltac three_by_one := apply/matrixP => -[[|[|[|i]]] Hi] j; rewrite // ord1; decide_entries.
Ltac one_by_one := apply/matrixP => i j; rewrite !ord1; decide_entries.

(** One equation's covariances of moments, [StatsModel.moment_covariances] with centering, and what is computed with them. *)
Definition instruments : 'M[rat]_(3, 2) := \matrix_(n, i) (if val n == val i then 1 else 0).
Definition column3 (a b c : rat) : 'cV[rat]_3 := \col_n (if val n == 0%N then a else if val n == 1%N then b else c).
Definition one_equation_covariances (robust : bool) (u : 'cV[rat]_3) : 'M[rat]_2 :=
  symmetrised (over 3 *: (if robust then outer (centered (\matrix_(n, i) (u n 0 * instruments n i)))
                          else error_covariance u u *: (instruments^T *m instruments))).
Definition regressors := column3 1 2%:R 0.
Definition outcomes := column3 0 5%:R 0.
Definition one_equation_estimate (W : 'M[rat]_2) (theta : unit) : 'cV[rat]_1 :=
  iv_parameters regressors instruments W (invmx (iv_information regressors instruments W)) outcomes.
Definition one_equation_weights (robust : bool) (beta : 'cV[rat]_1) : 'M[rat]_2 :=
  gmm_weights (invmx (one_equation_covariances robust (outcomes - regressors *m beta))).

Lemma instruments_weights : 3%:R%:M *m (3%:R^-1 *: (instruments^T *m instruments)) = 1%:M.
Proof. rewrite mul_scalar_mx. two_by_two. Qed.
Lemma first_estimate : one_equation_estimate 3%:R%:M tt = 2%:R%:M.
Proof.
  have E : invmx (iv_information regressors instruments (3%:R%:M)) = (15%:R^-1)%:M.
  { apply: invmx_of. rewrite /iv_information mul_mx_scalar. one_by_one. }
  rewrite /one_equation_estimate /iv_parameters E mul_mx_scalar. one_by_one.
Qed.
Lemma robust_estimate : one_equation_estimate (one_equation_weights true 2%:R%:M) tt = (35%:R / 13%:R)%:M.
Proof.
  have EU : outcomes - regressors *m 2%:R%:M = column3 (- 2%:R) 1 0 by three_by_one.
  have ES : one_equation_covariances true (column3 (- 2%:R) 1 0) = square (8%:R / 9%:R) (2%:R / 9%:R) (2%:R / 9%:R) (2%:R / 9%:R).
  { rewrite /one_equation_covariances /symmetrised /outer. two_by_two. }
  rewrite /one_equation_weights EU ES.
  rewrite (@invmx_of _ _ (square (3%:R / 2%:R) (- 3%:R / 2%:R) (- 3%:R / 2%:R) 6%:R)); last by two_by_two.
  have -> : gmm_weights (square (3%:R / 2%:R) (- 3%:R / 2%:R) (- 3%:R / 2%:R) 6%:R) = square (3%:R / 2%:R) (- 3%:R / 2%:R) (- 3%:R / 2%:R) 6%:R.
  { rewrite /gmm_weights /symmetrised. two_by_two. }
  rewrite /one_equation_estimate /iv_parameters (@invmx_of _ _ ((2%:R / 39%:R)%:M)); [one_by_one|one_by_one].
Qed.
Lemma unadjusted_estimate : one_equation_estimate (one_equation_weights false 2%:R%:M) tt = 2%:R%:M.
Proof.
  have EU : outcomes - regressors *m 2%:R%:M = column3 (- 2%:R) 1 0 by three_by_one.
  have ES : one_equation_covariances false (column3 (- 2%:R) 1 0) = square (14%:R / 27%:R) 0 0 (14%:R / 27%:R).
  { rewrite /one_equation_covariances /symmetrised /error_covariance. two_by_two. }
  rewrite /one_equation_weights EU ES.
  rewrite (@invmx_of _ _ (square (27%:R / 14%:R) 0 0 (27%:R / 14%:R))); last by two_by_two.
  have -> : gmm_weights (square (27%:R / 14%:R) 0 0 (27%:R / 14%:R)) = square (27%:R / 14%:R) 0 0 (27%:R / 14%:R).
  { rewrite /gmm_weights /symmetrised. two_by_two. }
  rewrite /one_equation_estimate /iv_parameters (@invmx_of _ _ ((14%:R / 135%:R)%:M)); [one_by_one|one_by_one].
Qed.
