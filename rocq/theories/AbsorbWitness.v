(** Concrete fixed effects. *)
Set Warnings "-notation-overridden,-ambiguous-paths".
From mathcomp Require Import all_ssreflect all_algebra.
From Verif Require Import StatsModel StatsSpec StatsProofs SolveModel SolveSpec SolveProofs SolveWitness AbsorbModel AbsorbSpec AbsorbProofs.
Set Implicit Arguments.
Unset Strict Implicit.
Unset Printing Implicit Defensive.
Import Order.TTheory GRing.Theory Num.Theory.
Local Open Scope ring_scope.

Lemma residualizes_by (F : realFieldType) N E (A : 'M[F]_N) (D : 'M[F]_(N, E)) B : 1%:M - A = D *m B -> D^T *m A = 0 -> residualizes A D.
Proof.
  move=> H O. split=> [|y]; last by rewrite mulmxA O mul0mx.
  exists B => y. by rewrite mulmxA -H mulmxBl mul1mx.
Qed.

(** Four products, two for each of two groups. *)
Definition column4 (a b c d : rat) : 'cV[rat]_4 :=
  \col_n (if val n == 0%N then a else if val n == 1%N then b else if val n == 2%N then c else d).
Definition pairs : 'M[rat]_(4, 2) := \matrix_(n, g) ((val n)./2 == val g)%:R.
Definition pair_deviations : 'M[rat]_4 := \matrix_(n, m) ((val n == val m)%:R - ((val n)./2 == (val m)./2)%:R / 2%:R).
Ltac four_by_four := apply/matrixP => -[[|[|[|[|i]]]] Hi] -[[|[|[|[|j]]]] Hj] //; decide_entries.
Ltac two_by_four := apply/matrixP => -[[|[|i]] Hi] -[[|[|[|[|j]]]] Hj] //; decide_entries.
Ltac four_by_one := apply/matrixP => -[[|[|[|[|i]]]] Hi] j; rewrite // ord1; decide_entries.
Lemma pairs_residualizes : residualizes pair_deviations pairs.
Proof.
  apply: (@residualizes_by _ _ _ _ _ (2%:R^-1 *: pairs^T)); [four_by_four|two_by_four].
Qed.
Definition pair_X := column4 0 2%:R 0 4%:R.
Definition pair_theta_X := column4 1 0 0 0.
Definition pair_delta := column4 3%:R 3%:R 5%:R 10%:R.
Lemma pair_absorbed : absorb pair_deviations pair_X = column4 (- 1) 1 (- 2%:R) 2%:R.
Proof. rewrite /absorb. four_by_one. Qed.
Lemma pair_weights : (2%:R / 5%:R)%:M *m (4%:R^-1 *: ((pair_deviations *m pair_X)^T *m (pair_deviations *m pair_X))) = 1%:M.
Proof. have E : pair_deviations *m pair_X = column4 (- 1) 1 (- 2%:R) 2%:R := pair_absorbed. rewrite E mul_scalar_mx. one_by_one. Qed.
Lemma pair_information : inverse_of (40%:R^-1)%:M (absorbed_information pair_deviations pair_X true pair_X (2%:R / 5%:R)%:M).
Proof.
  rewrite /inverse_of /absorbed_information /absorbed_Z /absorbed_X pair_absorbed /iv_information mul_mx_scalar mul_scalar_mx. one_by_one.
Qed.
Lemma pair_beta :
  absorbed_beta pair_deviations pair_X pair_theta_X 2%:R%:M pair_delta true pair_X (2%:R / 5%:R)%:M (40%:R^-1)%:M = (6%:R / 5%:R)%:M.
Proof.
  have E : absorb pair_deviations (pair_delta - pair_theta_X *m 2%:R%:M) = column4 (- 1) 1 (- 5%:R / 2%:R) (5%:R / 2%:R).
  { rewrite /absorb mul_mx_scalar. four_by_one. }
  rewrite /absorbed_beta /iv_delta /absorbed_Z /absorbed_X pair_absorbed E /iv_parameters !mul_scalar_mx !mul_mx_scalar. one_by_one.
Qed.

(** Three products in one group, and instruments that are not absorbed. *)
Definition common : 'M[rat]_(3, 1) := const_mx 1.
Definition common_deviations : 'M[rat]_3 := \matrix_(n, m) ((val n == val m)%:R - 3%:R^-1).
Ltac three_by_three := apply/matrixP => -[[|[|[|i]]] Hi] -[[|[|[|j]]] Hj] //; decide_entries.
Lemma common_residualizes : residualizes common_deviations common.
Proof.
  apply: (@residualizes_by _ _ _ _ _ (const_mx 3%:R^-1)); first by three_by_three.
  apply/matrixP => i -[[|[|[|j]]] Hj]; rewrite // ord1; decide_entries.
Qed.
Definition opposites := column3 1 (- 1) 0.
Lemma common_absorbed : absorb common_deviations opposites = opposites.
Proof. rewrite /absorb. three_by_one. Qed.
Lemma common_information : inverse_of (2%:R^-1)%:M (absorbed_information common_deviations opposites false instruments 1%:M).
Proof. rewrite /inverse_of /absorbed_information /absorbed_Z /absorbed_X common_absorbed /iv_information mulmx1 mul_scalar_mx. one_by_one. Qed.
Definition common_objective (d : 'cV[rat]_3) : rat :=
  absorbed_objective common_deviations opposites (0 : 'M_(3, 0)) 0 d false instruments 1%:M (2%:R^-1)%:M.
Lemma common_up : common_objective (column3 3%:R 3%:R (- 6%:R) + 1 *: column3 1 0 0) = 361%:R / 162%:R.
Proof.
  have AD : common_deviations *m (column3 3%:R 3%:R (- 6%:R) + 1 *: column3 1 0 0) = column3 (11%:R / 3%:R) (8%:R / 3%:R) (- 19%:R / 3%:R).
  { rewrite scale1r. three_by_one. }
  rewrite /common_objective /absorbed_objective.
  match goal with |- context [absorbed_moments ?A ?X ?T ?t ?d ?e ?Z ?W ?C] =>
    have BB : absorbed_beta A X T t d e Z W C = (2%:R^-1)%:M;
      [rewrite /absorbed_beta /iv_parameters /iv_delta /absorb /absorbed_X common_absorbed mul0mx subr0 AD mul_scalar_mx mulmx1 /absorbed_Z;
       one_by_one|];
    have XX : absorbed_xi A X T t d e Z W C = (column3 (19%:R / 6%:R) (19%:R / 6%:R) (- 19%:R / 3%:R));
      [rewrite /absorbed_xi BB /iv_delta /absorb /absorbed_X common_absorbed mul0mx subr0 AD mul_mx_scalar; three_by_one|];
    have MM : absorbed_moments A X T t d e Z W C = (column2 (19%:R / 18%:R) (19%:R / 18%:R)); [rewrite /absorbed_moments XX /absorbed_Z; two_by_one|];
    rewrite MM mulmx1; decide_entries
  end.
Qed.
Lemma common_down : common_objective (column3 3%:R 3%:R (- 6%:R) + (- 1) *: column3 1 0 0) = 289%:R / 162%:R.
Proof.
  have AD : common_deviations *m (column3 3%:R 3%:R (- 6%:R) + (- 1) *: column3 1 0 0) = column3 (7%:R / 3%:R) (10%:R / 3%:R) (- 17%:R / 3%:R).
  { rewrite scaleN1r. three_by_one. }
  rewrite /common_objective /absorbed_objective.
  match goal with |- context [absorbed_moments ?A ?X ?T ?t ?d ?e ?Z ?W ?C] =>
    have BB : absorbed_beta A X T t d e Z W C = (- 2%:R^-1)%:M;
      [rewrite /absorbed_beta /iv_parameters /iv_delta /absorb /absorbed_X common_absorbed mul0mx subr0 AD mul_scalar_mx mulmx1 /absorbed_Z;
       one_by_one|];
    have XX : absorbed_xi A X T t d e Z W C = (column3 (17%:R / 6%:R) (17%:R / 6%:R) (- 17%:R / 3%:R));
      [rewrite /absorbed_xi BB /iv_delta /absorb /absorbed_X common_absorbed mul0mx subr0 AD mul_mx_scalar; three_by_one|];
    have MM : absorbed_moments A X T t d e Z W C = (column2 (17%:R / 18%:R) (17%:R / 18%:R)); [rewrite /absorbed_moments XX /absorbed_Z; two_by_one|];
    rewrite MM mulmx1; decide_entries
  end.
Qed.
Lemma common_gradient :
  absorbed_gradient common_deviations opposites (0 : 'M_(3, 0)) 0 (column3 3%:R 3%:R (- 6%:R)) false instruments 1%:M (2%:R^-1)%:M (column3 1 0 0) 0 0
  = 2%:R / 3%:R.
Proof.
  have AD : common_deviations *m column3 3%:R 3%:R (- 6%:R) = column3 3%:R 3%:R (- 6%:R) by three_by_one.
  rewrite /absorbed_gradient.
  match goal with |- context [absorbed_moments ?A ?X ?T ?t ?d ?e ?Z ?W ?C] =>
    have BB : absorbed_beta A X T t d e Z W C = 0;
      [rewrite /absorbed_beta /iv_parameters /iv_delta /absorb /absorbed_X common_absorbed mul0mx subr0 AD mul_scalar_mx mulmx1 /absorbed_Z;
       one_by_one|];
    have XX : absorbed_xi A X T t d e Z W C = column3 3%:R 3%:R (- 6%:R);
      [by rewrite /absorbed_xi BB /iv_delta /absorb /absorbed_X common_absorbed mul0mx subr0 AD mulmx0 subr0|];
    have MM : absorbed_moments A X T t d e Z W C = column2 1 1; [rewrite /absorbed_moments XX /absorbed_Z; two_by_one|];
    rewrite MM mulmx1 /absorbed_Z; decide_entries
  end.
Qed.
Lemma common_not_slope : ~ slope common_objective (column3 3%:R 3%:R (- 6%:R)) (column3 1 0 0) (2%:R / 3%:R).
Proof.
  move=> [c H]. have U := H 1; have D := H (- 1). rewrite common_up in U. rewrite common_down in D.
  rewrite expr1n !mul1r in U. rewrite sqrrN expr1n mul1r mulN1r in D. move: (common_objective _) U D => f U D.
  have : (361%:R / 162%:R - 289%:R / 162%:R : rat) = 2%:R / 3%:R + 2%:R / 3%:R.
  { rewrite U D. move: (2%:R / 3%:R) => s. by rewrite opprD addrACA subrr addr0 opprD opprK addrACA subrr add0r. }
  move/eqP. by vm_compute.
Qed.
