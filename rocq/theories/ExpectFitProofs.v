(** Proofs about expected prices by default. *)
Set Warnings "-notation-overridden,-ambiguous-paths".
From mathcomp Require Import all_ssreflect all_algebra.
From Verif Require Import AbsorbModel AbsorbSpec AbsorbProofs ExpectFitModel ExpectFitSpec.
Set Implicit Arguments.
Unset Strict Implicit.
Unset Printing Implicit Defensive.
Import Order.TTheory GRing.Theory Num.Theory.
Local Open Scope ring_scope.

Section Lemmas.
  Context {F : realFieldType}.

  Lemma rest (V : zmodType) (a p q : V) : p - (a + p - q) = q - a.
  Proof. by rewrite -[a + p - q]addrA [a + (p - q)]addrC opprD opprB addrA addrCA subrr addr0. Qed.
  Lemma recombined (V : zmodType) (a p q z : V) : a + p - q = z + ((p - q) - (z - a)).
  Proof. by rewrite opprB addrCA [z + _]addrC subrK [RHS]addrC addrA. Qed.

  Lemma fit_plain N M (Z : 'M[F]_(N, M)) (p : 'cV[F]_N) b :
    fit_covariances Z *m b = fit_covariates None Z p -> fitted_values Z p (fitted_prices None Z p b).
  Proof.
    rewrite /fit_covariances /fit_covariates /fitted_prices /= => H. have E : Z *m b + p - p = Z *m b by rewrite addrK.
    rewrite E. split; [by exists b|]. by rewrite mulmxBr mulmxA H subrr.
  Qed.

  Lemma fit_absorbed N E M (A : 'M[F]_N) (D : 'M[F]_(N, E)) (Z : 'M[F]_(N, M)) (p : 'cV[F]_N) b :
    residualizes A D ->
    fit_covariances (absorbed_Z A true Z) *m b = fit_covariates (Some A) (absorbed_Z A true Z) p ->
    fitted_values (row_mx Z D) p (fitted_prices (Some A) (absorbed_Z A true Z) p b).
  Proof.
    move=> HA. rewrite /fit_covariances /fit_covariates /fitted_prices /absorbed_Z /regressed_prices /absorb => H.
    have R : p - (A *m Z *m b + p - A *m p) = A *m (p - Z *m b).
    { rewrite mulmxBr mulmxA. exact: rest. }
    split.
    - have [c1 H1] := res_removed HA p. have [c2 H2] := res_removed HA (Z *m b).
      exists (col_mx b (c1 - c2)). rewrite mul_row_col mulmxBr -H1 -H2 mulmxA.
      exact: recombined.
    - rewrite R tr_row_mx mul_col_mx. rewrite mulmxA [D^T *m _]mulmxA (res_orth HA) mul0mx.
      have -> : Z^T *m A *m (p - Z *m b) = 0.
      { have -> : Z^T *m A = (A *m Z)^T *m A by rewrite trmx_mul (res_sym HA) -mulmxA (res_idem HA).
        rewrite -mulmxA mulmxBr [A *m (Z *m b)]mulmxA mulmxBr. apply/eqP. rewrite subr_eq0 -H. by rewrite -!mulmxA. }
      by rewrite col_mx0.
  Qed.

  (** Fitted values are unique. *)
  Lemma fitted_unique N K (X : 'M[F]_(N, K)) y f g : fitted_values X y f -> fitted_values X y g -> f = g.
  Proof.
    move=> [[c ->] Hc] [[d ->] Hd]. apply/eqP. rewrite -subr_eq0. apply/eqP. apply: sumsq_zero.
    have Z : X^T *m (X *m c - X *m d) = 0.
    { have -> : X *m c - X *m d = (y - X *m d) - (y - X *m c) by rewrite opprB addrCA addrAC subrr add0r addrC.
      by rewrite mulmxBr Hc Hd subrr. }
    by rewrite -{1}mulmxBr trmx_mul -mulmxA Z mulmx0.
  Qed.
End Lemmas.
