(** Linear GMM in other units: characteristics and instruments are replaced by invertible combinations of them. *)
Set Warnings "-notation-overridden,-ambiguous-paths".
From mathcomp Require Import all_ssreflect all_algebra.
From Verif Require Import StatsModel.
Set Implicit Arguments.
Unset Strict Implicit.
Unset Printing Implicit Defensive.
Import GRing.Theory Num.Theory.
Local Open Scope ring_scope.

Section Units.
  Context {F : realFieldType}.

  Lemma inverse_unique n (A B C : 'M[F]_n) : A *m B = 1%:M -> C *m B = 1%:M -> A = C.
  Proof.
    move=> HA HC. have HB : B *m A = 1%:M by apply: mulmx1C.
    by rewrite -[C]mulmx1 -HB mulmxA HC mul1mx.
  Qed.

  Section IV.
    Variables (R K M : nat) (X : 'M[F]_(R, K)) (Z : 'M[F]_(R, M)) (W W' : 'M[F]_M) (P : 'M[F]_K) (Q : 'M[F]_M).
    Variables (A A' : 'M[F]_K).
    Hypothesis HP : P \in unitmx.
    Hypothesis HW : Q *m W' *m Q^T = W.
    Hypothesis HA : A *m iv_information X Z W = 1%:M.
    Hypothesis HA' : A' *m iv_information (X *m P) (Z *m Q) W' = 1%:M.

    Lemma information_units : iv_information (X *m P) (Z *m Q) W' = P^T *m iv_information X Z W *m P.
    Proof. by rewrite /iv_information !trmx_mul !trmxK -HW !mulmxA. Qed.
    Lemma covariances_units : P *m A' *m P^T = A.
    Proof.
      apply: (inverse_unique (B := iv_information X Z W)) => //.
      have E : A' *m (P^T *m iv_information X Z W) = invmx P.
        by apply: (inverse_unique (B := P)); [rewrite -mulmxA -information_units|rewrite mulVmx].
      by rewrite -!mulmxA E mulmxV.
    Qed.
    Lemma parameters_units C (y : 'M[F]_(R, C)) :
      P *m iv_parameters (X *m P) (Z *m Q) W' A' y = iv_parameters X Z W A y.
    Proof. by rewrite /iv_parameters -covariances_units -HW !trmx_mul !mulmxA. Qed.
    Lemma residuals_units (y : 'cV[F]_R) :
      iv_residuals (X *m P) (Z *m Q) W' A' y = iv_residuals X Z W A y.
    Proof. by rewrite /iv_residuals -mulmxA parameters_units. Qed.
  End IV.

  (* ---------- Covariances of moments ---------- *)
  Lemma symmetrised_units n k (Q : 'M[F]_(n, k)) (S : 'M[F]_n) : symmetrised (Q^T *m S *m Q) = Q^T *m symmetrised S *m Q.
  Proof. by rewrite /symmetrised !trmx_mul trmxK -scalemxAr -scalemxAl mulmxDr mulmxDl mulmxA. Qed.
  Lemma outer_units N M k (g : 'M[F]_(N, M)) (Q : 'M[F]_(M, k)) : outer (g *m Q) = Q^T *m outer g *m Q.
  Proof. by rewrite /outer trmx_mul !mulmxA. Qed.
  Lemma mean_units N M k (g : 'M[F]_(N, M)) (Q : 'M[F]_(M, k)) : column_mean (g *m Q) = Q^T *m column_mean g.
  Proof.
    apply/matrixP => i j. rewrite !mxE. under eq_bigr => n _ do rewrite mxE. rewrite exchange_big /= big_distrr /=.
    apply: eq_bigr => l _. rewrite !mxE -big_distrl /= mulrA mulrC. by [].
  Qed.
  Lemma centered_units N M k (g : 'M[F]_(N, M)) (Q : 'M[F]_(M, k)) : centered (g *m Q) = centered g *m Q.
  Proof.
    apply/matrixP => n i. rewrite mxE mean_units [RHS]mxE [(g *m Q) n i]mxE [(Q^T *m _) i 0]mxE -sumrB. apply: eq_bigr => l _.
    rewrite [centered g n l]mxE [Q^T i l]mxE mulrBl. congr (_ - _). exact: mulrC.
  Qed.
  Lemma cluster_units N M k (T : eqType) (ids : 'I_N -> T) (g : 'M[F]_(N, M)) (Q : 'M[F]_(M, k)) :
    cluster_sum ids (g *m Q) = cluster_sum ids g *m Q.
  Proof.
    apply/matrixP => c i. rewrite !mxE. under eq_bigr => n _ do rewrite mxE. rewrite exchange_big /=.
    apply: eq_bigr => l _. by rewrite !mxE big_distrl.
  Qed.
  Lemma moments_units E N (q : 'I_E -> nat) (u : 'I_E -> 'cV[F]_N) (Z : forall e, 'M[F]_(N, q e)) (Q : forall e, 'M[F]_(q e)) :
    gmm_moments u (fun e => Z e *m Q e) = gmm_moments u Z *m \mxdiag_e Q e.
  Proof.
    rewrite /gmm_moments mul_mxrow_mxdiag. apply: eq_mxrow => e. apply/matrixP => n i. rewrite !mxE big_distrr /=.
    apply: eq_bigr => l _. by rewrite !mxE mulrA.
  Qed.
  Lemma moment_covariances_units E N (q : 'I_E -> nat) (u : 'I_E -> 'cV[F]_N) (Z : forall e, 'M[F]_(N, q e)) (Q : forall e, 'M[F]_(q e))
      (type : covariance_type N) center :
    moment_covariances u (fun e => Z e *m Q e) type center
    = (\mxdiag_e Q e)^T *m moment_covariances u Z type center *m \mxdiag_e Q e.
  Proof.
    rewrite /moment_covariances -symmetrised_units moments_units.
    have Ec : (if center then centered (gmm_moments u Z *m \mxdiag_e Q e) else gmm_moments u Z *m \mxdiag_e Q e)
      = (if center then centered (gmm_moments u Z) else gmm_moments u Z) *m \mxdiag_e Q e.
      by case: center; rewrite ?centered_units.
    rewrite Ec. congr symmetrised. rewrite -scalemxAr -scalemxAl. congr (_ *: _).
    case: type => [||T ids].
    - rewrite tr_mxdiag mul_mxdiag_mxblock mul_mxblock_mxdiag. apply: eq_mxblock => e f.
      by rewrite trmx_mul -scalemxAr -scalemxAl !mulmxA.
    - by rewrite outer_units.
    - by rewrite cluster_units outer_units.
  Qed.

  (* ---------- Weighting matrices, the objective and standard errors ---------- *)
  Lemma weights_units n (Q S S' V V' : 'M[F]_n) : Q \in unitmx -> S' = Q^T *m S *m Q -> V *m S = 1%:M -> V' *m S' = 1%:M ->
    Q *m gmm_weights V' *m Q^T = gmm_weights V.
  Proof.
    move=> HQ ES HV HV'.
    have E : Q *m V' *m Q^T = V.
      apply: (inverse_unique (B := S)) => //.
      have E : V' *m (Q^T *m S) = invmx Q by apply: (inverse_unique (B := Q)); [rewrite -mulmxA -ES|rewrite mulVmx].
      by rewrite -!mulmxA E mulmxV.
    rewrite /gmm_weights. move: (symmetrised_units Q^T V'). rewrite trmxK => <-. by rewrite E.
  Qed.
  Lemma objective_units M (Q W W' : 'M[F]_M) (g : 'cV[F]_M) : Q *m W' *m Q^T = W ->
    (Q^T *m g)^T *m W' *m (Q^T *m g) = g^T *m W *m g.
  Proof. by move=> <-; rewrite trmx_mul trmxK !mulmxA. Qed.

  Section Covariances.
    Variables (M P : nat) (Q W W' S S' : 'M[F]_M) (G : 'M[F]_(M, P)) (D V V' : 'M[F]_P).
    Hypothesis HD : D \in unitmx.
    Hypothesis HW : Q *m W' *m Q^T = W.
    Hypothesis HS : S' = Q^T *m S *m Q.
    Hypothesis HV : V *m gmm_information W G = 1%:M.
    Hypothesis HV' : V' *m gmm_information W' (Q^T *m G *m D) = 1%:M.

    Lemma gmm_information_units : gmm_information W' (Q^T *m G *m D) = D^T *m gmm_information W G *m D.
    Proof. by rewrite /gmm_information !trmx_mul trmxK -HW !mulmxA. Qed.
    Lemma inverse_units : D *m V' *m D^T = V.
    Proof.
      apply: (inverse_unique (B := gmm_information W G)) => //.
      have E : V' *m (D^T *m gmm_information W G) = invmx D.
        by apply: (inverse_unique (B := D)); [rewrite -mulmxA -gmm_information_units|rewrite mulVmx].
      by rewrite -!mulmxA E mulmxV.
    Qed.
    Lemma parameter_covariances_units unadjusted :
      D *m parameter_covariances W' S' (Q^T *m G *m D) V' unadjusted *m D^T = parameter_covariances W S G V unadjusted.
    Proof.
      rewrite /parameter_covariances.
      have SU := symmetrised_units D^T. rewrite trmxK in SU. rewrite -SU. congr symmetrised.
      case: unadjusted; first exact: inverse_units.
      by rewrite -inverse_units HS -HW !trmx_mul !trmxK !mulmxA.
    Qed.
  End Covariances.

  (** Units of single columns: variances are divided by squares of units. *)
  Lemma diagonal_units n (d : 'rV[F]_n) (V V' : 'M[F]_n) i :
    diag_mx d *m V' *m (diag_mx d)^T = V -> V i i = d 0 i ^+ 2 * V' i i.
  Proof. by move=> <-; rewrite tr_diag_mx mul_mx_diag mul_diag_mx !mxE expr2 mulrAC. Qed.
  Lemma statistic_units n (d : 'rV[F]_n) (V V' : 'M[F]_n) (b b' : 'cV[F]_n) i : d 0 i != 0 ->
    diag_mx d *m V' *m (diag_mx d)^T = V -> diag_mx d *m b' = b ->
    b' i 0 ^+ 2 / V' i i = b i 0 ^+ 2 / V i i.
  Proof.
    move=> Hd HV <-. rewrite (diagonal_units i HV) mul_diag_mx mxE exprMn invfM.
    have H2 : d 0 i ^+ 2 != 0 by rewrite expf_neq0.
    by rewrite mulrACA mulfV // mul1r.
  Qed.
  (** Initial weights are inverses of cross products of instruments. *)
  Lemma initial_units R M (Z : 'M[F]_(R, M)) (Q V V' : 'M[F]_M) (c : F) : Q \in unitmx ->
    V *m (c *: (Z^T *m Z)) = 1%:M -> V' *m (c *: ((Z *m Q)^T *m (Z *m Q))) = 1%:M ->
    Q *m gmm_weights V' *m Q^T = gmm_weights V.
  Proof.
    move=> HQ HV HV'. apply: weights_units HV HV' => //.
    by rewrite trmx_mul -scalemxAr -scalemxAl !mulmxA.
  Qed.
End Units.
