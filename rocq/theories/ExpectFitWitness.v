(** Two products with the same fixed effect. *)
Set Warnings "-notation-overridden,-ambiguous-paths".
From mathcomp Require Import all_ssreflect all_algebra.
From Verif Require Import AbsorbModel AbsorbSpec AbsorbProofs ExpectFitModel ExpectFitSpec ExpectFitProofs.
Set Implicit Arguments.
Unset Strict Implicit.
Unset Printing Implicit Defensive.
Import Order.TTheory GRing.Theory Num.Theory.
Local Open Scope ring_scope.

Definition halves : 'M[rat]_2 := \matrix_(i, j) (if i == j then 2%:R^-1 else - 2%:R^-1).
Definition both : 'M[rat]_(2, 1) := \matrix_(i, j) 1.
Definition first_only : 'M[rat]_(2, 1) := \matrix_(i, j) (i == ord0)%:R.
Definition second_only : 'cV[rat]_2 := \matrix_(i, j) (i != ord0)%:R.

Ltac elements := rewrite ?(mxE, big_ord_recl, big_ord0) /=.

Lemma halves_residualize : residualizes halves both.
Proof.
  split.
  - exists (\matrix_(i, j) 2%:R^-1) => y. apply/matrixP => i j. rewrite !ord1 !mxE !big_ord_recl !big_ord0 !mxE !big_ord_recl !big_ord0 !mxE.
    case: i => [[|[|//]] Hi] /=; rewrite !addr0 ?mul1r.
    + have -> : Ordinal Hi = ord0 by apply: val_inj. rewrite /=. set a := y ord0 0. set b := y _ 0.
      rewrite mulNr opprD opprK addrA. congr (_ + _). rewrite -{1}[a]mul1r -mulrBl. congr (_ * _).
    + have -> : Ordinal Hi = lift ord0 ord0 by apply: val_inj. rewrite /=. set a := y ord0 0. set b := y _ 0.
      rewrite mulNr opprD opprK addrCA. congr (_ + _). rewrite -{1}[b]mul1r -mulrBl. congr (_ * _).
  - move=> y. apply/matrixP => i j. rewrite !ord1 !mxE !big_ord_recl !big_ord0 !mxE !big_ord_recl !big_ord0 !mxE /= !mul1r !addr0.
    by rewrite !mulNr addrACA subrr addNr addr0.
Qed.

Lemma unabsorbed_normal : fit_covariances (absorbed_Z halves false first_only) *m (- 2%:R^-1)%:M
  = fit_covariates (Some halves) (absorbed_Z halves false first_only) second_only.
Proof. apply/matrixP => i j. rewrite !ord1 /fit_covariances /fit_covariates /absorbed_Z /regressed_prices /absorb. elements. by vm_compute. Qed.

Definition unabsorbed_fit : 'cV[rat]_2 := fitted_prices (Some halves) (absorbed_Z halves false first_only) second_only (- 2%:R^-1)%:M.
Lemma unabsorbed_total : (both^T *m unabsorbed_fit) 0 0 = 2%:R^-1.
Proof. rewrite /unabsorbed_fit /fitted_prices /absorbed_Z /regressed_prices /absorb. elements. by vm_compute. Qed.
Lemma unabsorbed_averages : both^T *m unabsorbed_fit <> both^T *m second_only.
Proof. move/matrixP/(_ 0 0). rewrite unabsorbed_total. elements. by move/eqP; vm_compute. Qed.
Lemma unabsorbed_not_fitted : ~ fitted_values (row_mx first_only both) second_only unabsorbed_fit.
Proof.
  move=> [_]. rewrite tr_row_mx mul_col_mx => H. apply: unabsorbed_averages. apply/eqP. rewrite eq_sym -subr_eq0. apply/eqP.
  have : dsubmx (col_mx (first_only^T *m (second_only - unabsorbed_fit)) (both^T *m (second_only - unabsorbed_fit))) = 0 by rewrite H linear0.
  by rewrite col_mxKd mulmxBr.
Qed.

Lemma absorbed_normal : fit_covariances (absorbed_Z halves true first_only) *m (- 1)%:M
  = fit_covariates (Some halves) (absorbed_Z halves true first_only) second_only.
Proof. apply/matrixP => i j. rewrite !ord1 /fit_covariances /fit_covariates /absorbed_Z /regressed_prices /absorb. elements. by vm_compute. Qed.
Lemma absorbed_fit : fitted_prices (Some halves) (absorbed_Z halves true first_only) second_only (- 1)%:M = second_only.
Proof.
  apply/matrixP => i j. rewrite !ord1 /fitted_prices /absorbed_Z /regressed_prices /absorb. elements.
  case: i => [[|[|//]] Hi]; by vm_compute.
Qed.
