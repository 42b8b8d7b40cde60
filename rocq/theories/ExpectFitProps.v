(** C125: expected prices of optimal instruments, by default without a supply side or with costs that depend on shares. *)
Set Warnings "-notation-overridden,-ambiguous-paths".
From mathcomp Require Import all_ssreflect all_algebra.
From Verif Require Import AbsorbModel AbsorbSpec AbsorbProofs ExpectFitModel ExpectFitSpec ExpectFitProofs ExpectFitWitness.
Set Implicit Arguments.
Unset Strict Implicit.
Unset Printing Implicit Defensive.
Import Order.TTheory GRing.Theory Num.Theory.
Local Open Scope ring_scope.

(** Without fixed effects, expected prices are fitted values of a regression of prices on instruments, whichever solution of the
    normal equations is used (they may be singular). *)
Theorem C125_fitted_prices (F : realFieldType) N M (Z : 'M[F]_(N, M)) (prices : 'cV[F]_N) parameters :
  fit_covariances Z *m parameters = fit_covariates None Z prices ->
  forall fit, fitted_values Z prices fit <-> fit = fitted_prices None Z prices parameters.
Proof.
  move=> H fit. split=> [Hf|->]; [apply: fitted_unique Hf _|]; exact: fit_plain.
Qed.
Print Assumptions C125_fitted_prices.

(** With absorbed fixed effects, they are fitted values of a regression on instruments and an indicator for each fixed effect. *)
Theorem C125_fixed_effects (F : realFieldType) N E M (A : 'M[F]_N) (D : 'M[F]_(N, E)) (Z : 'M[F]_(N, M)) (prices : 'cV[F]_N) parameters :
  residualizes A D ->
  fit_covariances (absorbed_Z A true Z) *m parameters = fit_covariates (Some A) (absorbed_Z A true Z) prices ->
  forall fit, fitted_values (row_mx Z D) prices fit <-> fit = fitted_prices (Some A) (absorbed_Z A true Z) prices parameters.
Proof.
  move=> HA H fit. split=> [Hf|->]; [apply: fitted_unique Hf _|]; exact: fit_absorbed.
Qed.
Print Assumptions C125_fixed_effects.

(** With add_exogenous=False, instruments are used as they are, and if the user has not absorbed fixed effects into them, expected prices
    are not fitted values: they do not even have the average of prices in each group. *)
Theorem C125_unabsorbed_refuted :
  exists (A : 'M[rat]_2) (D : 'M[rat]_(2, 1)) (Z : 'M[rat]_(2, 1)) (prices : 'cV[rat]_2) parameters,
  [/\ residualizes A D,
      fit_covariances (absorbed_Z A false Z) *m parameters = fit_covariates (Some A) (absorbed_Z A false Z) prices,
      ~ fitted_values (row_mx Z D) prices (fitted_prices (Some A) (absorbed_Z A false Z) prices parameters) &
      D^T *m fitted_prices (Some A) (absorbed_Z A false Z) prices parameters <> D^T *m prices].
Proof.
  exists halves, both, first_only, second_only, (- 2%:R^-1)%:M.
  split; [exact: halves_residualize|exact: unabsorbed_normal|exact: unabsorbed_not_fitted|exact: unabsorbed_averages].
Qed.
Print Assumptions C125_unabsorbed_refuted.

(** Two products that share a fixed effect and one instrument. *)
Example C125_applies :
  [/\ residualizes halves both,
      fit_covariances (absorbed_Z halves true first_only) *m (- 1)%:M = fit_covariates (Some halves) (absorbed_Z halves true first_only) second_only &
      fitted_prices (Some halves) (absorbed_Z halves true first_only) second_only (- 1)%:M = second_only].
Proof. split; [exact: halves_residualize|exact: absorbed_normal|exact: absorbed_fit]. Qed.
Print Assumptions C125_applies.
