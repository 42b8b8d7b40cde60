(** Proofs about statistics. *)
Set Warnings "-notation-overridden,-ambiguous-paths".
From mathcomp Require Import all_ssreflect all_algebra.
From Verif Require Import StatsModel StatsSpec.
Set Implicit Arguments.
Unset Strict Implicit.
Unset Printing Implicit Defensive.
Import GRing.Theory Num.Theory Order.Theory.
Local Open Scope ring_scope.

Section Proofs.
  Context {F : realFieldType}.

  (* ---------- Instrumental variables ---------- *)
  Section IV.
    Variables (R K M : nat) (X : 'M[F]_(R, K)) (Z : 'M[F]_(R, M)) (W : 'M[F]_M) (C : 'M[F]_K).
    Hypothesis invertible : inverse_of C (iv_information X Z W).
    Let exact' : iv_information X Z W *m C = 1%:M := mulmx1C invertible.

    Lemma information_eq : iv_information X Z W = X^T *m Z *m W *m Z^T *m X.
    Proof. by rewrite /iv_information trmx_mul trmxK !mulmxA. Qed.

    Lemma iv_foc (y : 'cV[F]_R) : first_order X Z W y (iv_parameters X Z W C y).
    Proof.
      rewrite /first_order /iv_parameters mulmxBr.
      have -> : X^T *m Z *m W *m Z^T *m (X *m (C *m (X^T *m Z) *m W *m (Z^T *m y))) =
        (iv_information X Z W *m C) *m (X^T *m Z *m W *m Z^T *m y) by rewrite information_eq !mulmxA.
      by rewrite exact' mul1mx subrr.
    Qed.
    Lemma iv_unique (y : 'cV[F]_R) b : first_order X Z W y b -> b = iv_parameters X Z W C y.
    Proof.
      rewrite /first_order mulmxBr => /eqP; rewrite subr_eq0 => /eqP H.
      have : C *m (X^T *m Z *m W *m Z^T *m y) = C *m (iv_information X Z W *m b).
      { by rewrite H information_eq !mulmxA. }
      by rewrite (mulmxA C (iv_information X Z W)) invertible mul1mx => <-; rewrite /iv_parameters !mulmxA.
    Qed.
    Lemma iv_linear D (y y' : 'M[F]_(R, D)) : iv_parameters X Z W C (y + y') = iv_parameters X Z W C y + iv_parameters X Z W C y'.
    Proof. by rewrite /iv_parameters !mulmxDr. Qed.
    Lemma iv_convert_eq P (J : 'M[F]_(R, P)) : iv_convert X Z W C J = J - X *m iv_parameters X Z W C J.
    Proof. by rewrite /iv_convert /iv_parameters !mulmxA. Qed.
    Lemma iv_mul P (J : 'M[F]_(R, P)) Q (h : 'M[F]_(P, Q)) : iv_parameters X Z W C (J *m h) = iv_parameters X Z W C J *m h.
    Proof. by rewrite /iv_parameters !mulmxA. Qed.
    Lemma iv_jacobian P (J : 'M[F]_(R, P)) (h : 'cV[F]_P) y :
      iv_residuals X Z W C (y + J *m h) = iv_residuals X Z W C y + iv_convert X Z W C J *m h.
    Proof.
      rewrite /iv_residuals iv_convert_eq iv_linear iv_mul mulmxDr mulmxBl !mulmxA opprD addrACA. by [].
    Qed.
    Lemma iv_exact b (y : 'cV[F]_R) : Z^T *m (y - X *m b) = 0 -> iv_parameters X Z W C y = b.
    Proof.
      move=> H; symmetry; apply: iv_unique. by rewrite /first_order -!mulmxA H !mulmx0.
    Qed.
    Lemma iv_residuals_zero (y : 'cV[F]_R) : iv_parameters X Z W C (iv_residuals X Z W C y) = 0.
    Proof.
      symmetry; apply: iv_unique. rewrite /first_order mulmx0 subr0. exact: (iv_foc y).
    Qed.
    (** With positive semidefinite symmetric weights, parameters minimise the objective. *)
    Lemma iv_minimises (y : 'cV[F]_R) b : symmetric W -> positive_semidefinite W ->
      iv_objective X Z W y (iv_parameters X Z W C y) <= iv_objective X Z W y b.
    Proof.
      move=> S P. set b0 := iv_parameters X Z W C y.
      have E : Z^T *m (y - X *m b) = Z^T *m (y - X *m b0) + Z^T *m (X *m (b0 - b)).
      { by rewrite -mulmxDr; congr (_ *m _); rewrite mulmxBr addrA subrK. }
      rewrite /iv_objective E /quadratic. set g := Z^T *m (y - X *m b0). set d := Z^T *m (X *m (b0 - b)).
      have G : d^T *m W *m g = 0.
      { rewrite /d /g !trmx_mul trmxK -!mulmxA. have := iv_foc y. rewrite /first_order -/b0 -!mulmxA => ->. by rewrite mulmx0. }
      have T (u v : 'cV[F]_M) : u^T *m W *m v = 0 -> v^T *m W *m u = 0.
      { move=> H; apply: trmx_inj. by rewrite trmx0 !trmx_mul trmxK S mulmxA. }
      have G' := T _ _ G.
      rewrite [(g + d)^T]linearD /= mulmxDl mulmxDl !mulmxDr G G' addr0 add0r [X in _ <= X]mxE. rewrite ler_addl. exact: P.
    Qed.
  End IV.

  Lemma residual_split E N K (q : 'I_E -> nat) (X : forall e : 'I_E, 'M[F]_(N, K)) (Z : forall e, 'M[F]_(N, q e))
      (W : 'M[F]_(\sum_e q e)) C (y : forall e : 'I_E, 'cV[F]_N) e :
    stacked_residuals X Z W C y e = y e - X e *m stacked_parameters X Z W C y.
  Proof.
    rewrite /stacked_residuals /iv_residuals submxcolB mxcolK. congr (_ - _). by rewrite -submxcol_mul mxcolK.
  Qed.

  (** Moments of the stacked equations are Z'u / N. *)
  Lemma moments_stacked E N (q : 'I_E -> nat) (u : 'I_E -> 'cV[F]_N) (Z : forall e, 'M[F]_(N, q e)) :
    column_mean (gmm_moments u Z) = over N *: ((block_diag Z)^T *m \mxcol_e u e).
  Proof.
    have -> : (block_diag Z)^T *m (\mxcol_e u e) = \mxcol_e ((Z e)^T *m u e).
    { rewrite /block_diag tr_mxblock mul_mxblock_mxrow. apply/eq_mxcolP => e.
      rewrite (bigD1 e) //= eqxx big1 ?addr0 // => f fe. by rewrite (negbTE fe) trmx0 mul0mx. }
    have -> : column_mean (gmm_moments u Z) = over N *: ((gmm_moments u Z)^T *m const_mx 1).
    { apply/colP => k; rewrite !mxE. congr (_ * _). apply: eq_bigr => n _. by rewrite !mxE mulr1. }
    congr (_ *: _). rewrite /gmm_moments tr_mxrow mxcol_mul. apply/eq_mxcolP => e.
    apply/colP => i; rewrite !mxE. apply: eq_bigr => n _. by rewrite !mxE mulr1 mulrC.
  Qed.

  (* ---------- Symmetry ---------- *)

  Lemma symmetrised_symmetric n (A : 'M[F]_n) : symmetric (symmetrised A).
  Proof. by rewrite /symmetric /symmetrised linearZ /= raddfD /= trmxK addrC. Qed.
  Lemma two_neq0 : (2%:R : F) != 0. Proof. by rewrite pnatr_eq0. Qed.
  Lemma symmetrised_id n (A : 'M[F]_n) : symmetric A -> symmetrised A = A.
  Proof. rewrite /symmetric /symmetrised => ->. by rewrite -[A + A]mulr2n -scaler_nat scalerA mulVf ?two_neq0 // scale1r. Qed.
  Lemma symmetrised_quadratic n (A : 'M[F]_n) x : quadratic (symmetrised A) x = quadratic A x.
  Proof.
    have E : quadratic A^T x = quadratic A x.
    { rewrite /quadratic -[in RHS](trmxK (x^T *m A *m x)) [in RHS]mxE. congr (fun_of_matrix _ _ _). by rewrite !trmx_mul trmxK mulmxA. }
    rewrite /symmetrised /quadratic -scalemxAr -scalemxAl mulmxDr mulmxDl [LHS]mxE [X in _ * X]mxE.
    move: E; rewrite /quadratic => ->. by rewrite -mulr2n -[X in _ * X]mulr_natl mulrA mulVf ?two_neq0 // mul1r.
  Qed.
  Lemma inverse_symmetric n (A B : 'M[F]_n) : symmetric A -> inverse_of B A -> symmetric B.
  Proof.
    move=> S I. have I' : A *m B = 1%:M := mulmx1C I. rewrite /symmetric -[B^T]mulmx1 -I' mulmxA.
    have -> : B^T *m A = 1%:M by rewrite -{1}S -trmx_mul I' trmx1. by rewrite mul1mx.
  Qed.

  (* ---------- Covariances of moments ---------- *)

  Lemma over_ge0 N : 0 <= over N :> F. Proof. by rewrite invr_ge0 ler0n. Qed.
  Lemma square_ge0 m (v : 'cV[F]_m) : 0 <= (v^T *m v) 0 0.
  Proof. rewrite mxE. apply: sumr_ge0 => i _. by rewrite mxE -expr2 sqr_ge0. Qed.
  Lemma outer_psd N M (g : 'M[F]_(N, M)) : positive_semidefinite (outer g).
  Proof. move=> x. rewrite /quadratic /outer. have -> : x^T *m (g^T *m g) *m x = (g *m x)^T *m (g *m x) by rewrite trmx_mul !mulmxA. exact: square_ge0. Qed.

  Lemma unadjusted_psd E N (q : 'I_E -> nat) (u : 'I_E -> 'cV[F]_N) (Z : forall e, 'M[F]_(N, q e)) :
    positive_semidefinite (\mxblock_(e, f) (error_covariance (u e) (u f) *: ((Z e)^T *m Z f))).
  Proof.
    move=> x. rewrite /quadratic -(submxcolK x). set y := fun e => submxcol x e.
    rewrite tr_mxcol mul_mxrow_mxblock mul_mxrow_mxcol.
    pose t e n := u e n 0 - column_mean (u e) 0 0.
    pose w n := \sum_e t e n *: (Z e *m y e).
    have -> : \sum_f (\sum_e (y e)^T *m (error_covariance (u e) (u f) *: ((Z e)^T *m Z f))) *m y f
      = over N *: \sum_n (w n)^T *m w n.
    { transitivity (\sum_f \sum_e \sum_n over N *: ((t e n *: (Z e *m y e))^T *m (t f n *: (Z f *m y f)))).
      - apply: eq_bigr => f _. rewrite mulmx_suml. apply: eq_bigr => e _.
        rewrite -scalemxAr -scalemxAl /error_covariance -/(t e) -/(t f) -scaler_sumr -scalerA. congr (_ *: _).
        rewrite scaler_suml. apply: eq_bigr => n _.
        by rewrite [(t e n *: (Z e *m y e))^T]linearZ /= trmx_mul -scalemxAl -scalemxAr scalerA !mulmxA.
      - rewrite exchange_big /= scaler_sumr.
        transitivity (\sum_e \sum_n over N *: ((t e n *: (Z e *m y e))^T *m w n)).
        + apply: eq_bigr => e _. rewrite exchange_big /=. apply: eq_bigr => n _. by rewrite -scaler_sumr -mulmx_sumr.
        + rewrite exchange_big /=. apply: eq_bigr => n _. rewrite -scaler_sumr -mulmx_suml. congr (_ *: (_ *m _)). by rewrite /w [RHS]linear_sum. }
    rewrite [X in 0 <= X]mxE. apply: mulr_ge0; first exact: over_ge0. rewrite summxE. apply: sumr_ge0 => n _. exact: square_ge0.
  Qed.

  Lemma scaled_psd n a (A : 'M[F]_n) : 0 <= a -> positive_semidefinite A -> positive_semidefinite (a *: A).
  Proof. move=> H P x. rewrite /quadratic -scalemxAr -scalemxAl [X in 0 <= X]mxE. apply: mulr_ge0 => //; exact: P. Qed.
  Lemma moment_covariances_psd E N (q : 'I_E -> nat) (u : 'I_E -> 'cV[F]_N) (Z : forall e, 'M[F]_(N, q e)) type center :
    positive_semidefinite (moment_covariances u Z type center).
  Proof.
    move=> x. rewrite /moment_covariances symmetrised_quadratic. apply: scaled_psd; first exact: over_ge0.
    case: type => [||T ids]; [exact: unadjusted_psd|exact: outer_psd|exact: outer_psd].
  Qed.

  (** One observation per cluster. *)
  Lemma cluster_singletons N M (T : eqType) (ids : 'I_N -> T) (g : 'M[F]_(N, M)) : injective ids ->
    outer (cluster_sum ids g) = outer g.
  Proof.
    move=> I. apply/matrixP => i j. rewrite /outer mxE [RHS]mxE.
    have S : clusters ids = [seq ids n | n <- enum 'I_N].
    { rewrite /clusters undup_id //. by rewrite map_inj_uniq ?enum_uniq. }
    transitivity (\sum_(c <- clusters ids) (\sum_(n | ids n == c) g n i) * (\sum_(n | ids n == c) g n j)).
    { rewrite [RHS]big_tnth. apply: eq_bigr => c _. by rewrite !mxE. }
    rewrite S big_map big_enum /=. apply: eq_bigr => n _. rewrite !mxE.
    by rewrite !(big_pred1 n) // => m /=; rewrite (inj_eq I).
  Qed.

  Lemma undup_constant (T : eqType) N (x : T) : undup (nseq N.+1 x) = [:: x].
  Proof. elim: N => [|N IH] //. rewrite -[nseq N.+2 x]/(x :: nseq N.+1 x) -[undup (x :: nseq N.+1 x)]/(if x \in nseq N.+1 x then undup (nseq N.+1 x) else x :: undup (nseq N.+1 x)). by rewrite mem_head. Qed.
  (** One cluster: moments add up to N times their mean. *)
  Lemma cluster_whole N M (T : eqType) (ids : 'I_N.+1 -> T) (g : 'M[F]_(N.+1, M)) : (forall n m, ids n = ids m) ->
    over N.+1 *: outer (cluster_sum ids g) = (N.+1)%:R *: (column_mean g *m (column_mean g)^T).
  Proof.
    move=> I. apply/matrixP => i j. rewrite /outer [LHS]mxE [in LHS]mxE [RHS]mxE [in RHS]mxE.
    have S : clusters ids = [:: ids ord0].
    { rewrite /clusters. have -> : [seq ids n | n <- enum 'I_N.+1] = nseq N.+1 (ids ord0).
      { apply: (@eq_from_nth _ (ids ord0)); rewrite size_map ?size_nseq size_enum_ord // => k Hk.
        rewrite (nth_map ord0) ?size_enum_ord // nth_nseq Hk. exact: I. }
      exact: undup_constant. }
    transitivity (over N.+1 * \sum_(c <- clusters ids) (\sum_(n | ids n == c) g n i) * (\sum_(n | ids n == c) g n j)).
    { congr (_ * _). rewrite [RHS]big_tnth. apply: eq_bigr => c _. by rewrite !mxE. }
    rewrite S big_seq1 big_ord1 !mxE.
    have A k : \sum_(n | ids n == ids ord0) g n k = \sum_n g n k by apply: eq_bigl => n; rewrite (I n ord0) eqxx.
    rewrite !A /over. set a := \sum_n g n i. set b := \sum_n g n j.
    have Z : (N.+1)%:R != 0 :> F by rewrite pnatr_eq0.
    rewrite [X in _ = _ * X]mulrACA -[X in _ = _ * X]mulrA [RHS]mulrA mulfV // mul1r. by [].
  Qed.

  (* ---------- Covariances of parameters ---------- *)

  Lemma optimal_covariances M P (S W : 'M[F]_M) (G : 'M[F]_(M, P)) V b :
    inverse_of W S -> inverse_of V (gmm_information W G) ->
    parameter_covariances W S G V b = parameter_covariances W S G V true.
  Proof.
    move=> I J. case: b => //. rewrite /parameter_covariances. congr symmetrised.
    have -> : V *m G^T *m W *m S *m W *m G *m V = V *m G^T *m (W *m S) *m W *m G *m V by rewrite !mulmxA.
    rewrite I mulmx1. have -> : V *m G^T *m W *m G *m V = (V *m gmm_information W G) *m V by rewrite /gmm_information !mulmxA.
    by rewrite J mul1mx.
  Qed.
  Lemma information_symmetric M P (W : 'M[F]_M) (G : 'M[F]_(M, P)) : symmetric W -> symmetric (gmm_information W G).
  Proof. by rewrite /symmetric /gmm_information => S; rewrite !trmx_mul trmxK S mulmxA. Qed.
  Lemma sandwich M P (W S : 'M[F]_M) (G : 'M[F]_(M, P)) V : symmetric W -> symmetric S -> inverse_of V (gmm_information W G) ->
    parameter_covariances W S G V false = parameter_sensitivity W G V *m S *m (parameter_sensitivity W G V)^T.
  Proof.
    move=> SW SS I. have SV := inverse_symmetric (information_symmetric G SW) I.
    have E : parameter_sensitivity W G V *m S *m (parameter_sensitivity W G V)^T = V *m G^T *m W *m S *m W *m G *m V.
    { rewrite /parameter_sensitivity raddfN /= !mulNmx mulmxN opprK !trmx_mul trmxK SW SV !mulmxA. by []. }
    rewrite E /parameter_covariances. apply: symmetrised_id. by rewrite /symmetric -E !trmx_mul trmxK SS mulmxA.
  Qed.
  Lemma covariances_psd M P (W S : 'M[F]_M) (G : 'M[F]_(M, P)) V : symmetric W -> symmetric S -> positive_semidefinite S ->
    inverse_of V (gmm_information W G) -> positive_semidefinite (parameter_covariances W S G V false).
  Proof.
    move=> SW SS PS I x. rewrite (sandwich SW SS I) /quadratic.
    set L := parameter_sensitivity W G V. have -> : x^T *m (L *m S *m L^T) *m x = (L^T *m x)^T *m S *m (L^T *m x) by rewrite trmx_mul trmxK !mulmxA.
    exact: PS.
  Qed.
  Lemma sensitivity_inverse M P (W : 'M[F]_M) (G : 'M[F]_(M, P)) V : inverse_of V (gmm_information W G) ->
    parameter_sensitivity W G V *m G = - 1%:M.
  Proof. by rewrite /inverse_of /gmm_information /parameter_sensitivity mulNmx => <-; rewrite !mulmxA. Qed.

  (* ---------- Wald statistic ---------- *)

  Lemma wald_invariant P Q N (V : 'M[F]_P) (R : 'M[F]_(Q, P)) (r : 'cV[F]_Q) (A B I J : 'M[F]_Q) :
    inverse_of A B -> inverse_of I (wald_matrix V R) -> inverse_of J (wald_matrix V (A *m R)) ->
    wald_statistic N J (A *m r) = wald_statistic N I r.
  Proof.
    move=> AB HI HJ. have BA : B *m A = 1%:M := mulmx1C AB. rewrite /wald_statistic. congr (_ * fun_of_matrix _ _ _).
    rewrite trmx_mul. have -> : r^T *m A^T *m J *m (A *m r) = r^T *m (A^T *m J *m A) *m r by rewrite !mulmxA.
    congr (_ *m _ *m _).
    have HI' : wald_matrix V R *m I = 1%:M := mulmx1C HI.
    have X : A^T *m J *m A *m wald_matrix V R = 1%:M.
    { have -> : A^T *m J *m A *m wald_matrix V R = A^T *m (J *m wald_matrix V (A *m R)) *m B^T.
      { rewrite /wald_matrix trmx_mul !mulmxA. rewrite -!mulmxA -[X in _ = _ *m (_ *m (_ *m (_ *m (_ *m (_ *m X)))))]trmx_mul BA trmx1 mulmx1. by []. }
      by rewrite HJ mulmx1 -trmx_mul BA trmx1. }
    by rewrite -[LHS]mulmx1 -HI' mulmxA X mul1mx.
  Qed.

  (* ---------- Concentrated-out parameters and standard errors ---------- *)

  Lemma transformed_inverse M P (W : 'M[F]_M) (G : 'M[F]_(M, P)) V (T U : 'M[F]_P) :
    inverse_of T U -> inverse_of V (gmm_information W G) -> inverse_of (U *m V *m U^T) (gmm_information W (G *m T)).
  Proof.
    move=> TU HV. have UT : U *m T = 1%:M := mulmx1C TU. rewrite /inverse_of.
    have -> : U *m V *m U^T *m gmm_information W (G *m T) = U *m V *m (U^T *m T^T) *m (gmm_information W G) *m T.
    { by rewrite /gmm_information trmx_mul !mulmxA. }
    by rewrite -trmx_mul TU trmx1 mulmx1 -(mulmxA U) HV mulmx1 UT.
  Qed.
  (** Reparameterising: if G2 = G1 T then covariances transform accordingly. *)
  Lemma covariances_transform M P (W S : 'M[F]_M) (G : 'M[F]_(M, P)) V V2 (T U : 'M[F]_P) b :
    inverse_of T U -> inverse_of V (gmm_information W G) -> inverse_of V2 (gmm_information W (G *m T)) ->
    parameter_covariances W S (G *m T) V2 b = U *m parameter_covariances W S G V b *m U^T.
  Proof.
    move=> TU HV HV2. have UT : U *m T = 1%:M := mulmx1C TU.
    have E : V2 = U *m V *m U^T.
    { have X : (U *m V *m U^T) *m gmm_information W (G *m T) = 1%:M.
      { have -> : U *m V *m U^T *m gmm_information W (G *m T) = U *m V *m (U^T *m T^T) *m (gmm_information W G) *m T.
        { by rewrite /gmm_information trmx_mul !mulmxA. }
        by rewrite -trmx_mul TU trmx1 mulmx1 -(mulmxA U) HV mulmx1 UT. }
      have Y := mulmx1C HV2. by rewrite -[RHS]mulmx1 -Y mulmxA X mul1mx. }
    have Sy n (A U' : 'M[F]_n) : symmetrised (U' *m A *m U'^T) = U' *m symmetrised A *m U'^T.
    { by rewrite /symmetrised !trmx_mul trmxK -scalemxAr -scalemxAl mulmxDr mulmxDl !mulmxA. }
    rewrite /parameter_covariances -Sy. congr symmetrised. case: b => //.
    rewrite E trmx_mul.
    have -> : U *m V *m U^T *m (T^T *m G^T) *m W *m S *m W *m (G *m T) *m (U *m V *m U^T) =
      U *m V *m (U^T *m T^T) *m G^T *m W *m S *m W *m G *m (T *m U) *m V *m U^T by rewrite !mulmxA.
    by rewrite -trmx_mul TU trmx1 !mulmx1 !mulmxA.
  Qed.

  Lemma jacobian_mean_eq N M P (J : 'M[F]_(N, P)) (Z : 'M[F]_(N, M)) : jacobian_mean J Z = over N *: (Z^T *m J).
  Proof. apply/matrixP => i p. rewrite !mxE. congr (_ * _). apply: eq_bigr => n _. by rewrite mxE mulrC. Qed.
  Lemma times_mul N P Q (u : 'cV[F]_N) (J : 'M[F]_(N, P)) (A : 'M[F]_(P, Q)) : times u (J *m A) = times u J *m A.
  Proof. apply/matrixP => n q. rewrite !mxE mulr_sumr. apply: eq_bigr => p _. by rewrite mxE mulrA. Qed.
  Lemma times_add N P (u : 'cV[F]_N) (J H : 'M[F]_(N, P)) : times u (J + H) = times u J + times u H.
  Proof. apply/matrixP => n q. by rewrite !mxE mulrDr. Qed.
  Lemma times_opp N P (u : 'cV[F]_N) (J : 'M[F]_(N, P)) : times u (- J) = - times u J.
  Proof. apply/matrixP => n q. by rewrite !mxE mulrN. Qed.

  Lemma mean_G_correct N P K1 K3 MD MS MC (xi omega : 'cV[F]_N) (X1 : 'M[F]_(N, K1)) (X3 : 'M[F]_(N, K3))
      (ZD : 'M[F]_(N, MD)) (ZS : 'M[F]_(N, MS)) (ZC : 'M[F]_(N, MC)) (J H : 'M[F]_(N, P)) :
    moments_jacobian ZD ZS ZC X1 X3 J H xi omega (mean_G xi omega X1 X3 ZD ZS ZC J H).
  Proof.
    move=> theta beta gamma dxi domega. rewrite /mean_moments /mean_G !jacobian_mean_eq !mul_col_mx -!scalemxAl -!mulmxA !mul_row_col.
    rewrite !mul0mx !addr0 !add0r. rewrite -/(over N) !mulNmx -/dxi -/domega.
    have X : (times omega J + times xi H) *m theta + (times omega (- X1) *m beta + times xi (- X3) *m gamma) =
      times omega dxi + times xi domega.
    { rewrite /dxi /domega !times_add !times_opp !times_mul !mulmxDl !mulNmx addrACA. by []. }
    rewrite X !add_col_mx -!scalerDr -!mulmxDr addr0. congr (col_mx _ (_ *: (_ *m _))).
    clear X; clearbody dxi domega.
    apply/matrixP => n k. rewrite !mxE !ord1 mulrDl !mulrDr.
    rewrite -!addrA. congr (_ + _). rewrite addrCA [dxi n 0 * omega n 0]mulrC. by [].
  Qed.

  (** Converted Jacobians are those multiplied by a unit lower triangular matrix. *)
  Definition mixing P K (B : 'M[F]_(K, P)) : 'M[F]_(P + K) := block_mx 1%:M 0 B 1%:M.
  Lemma mixing_inverse P K (B : 'M[F]_(K, P)) : inverse_of (mixing B) (mixing (- B)).
  Proof.
    by rewrite /inverse_of /mixing mulmx_block !mulmx0 !mul0mx !mulmx1 !mul1mx !addr0 !add0r subrr -scalar_mx_block.
  Qed.
  Definition concentrated N P K1 K3 MD MS (X1 : 'M[F]_(N, K1)) (X3 : 'M[F]_(N, K3))
      (ZD : 'M[F]_(N, MD)) (ZS : 'M[F]_(N, MS)) (W : 'M[F]_(MD + MS)) C (J H : 'M[F]_(N, P)) : 'M[F]_(K1 + K3, P) :=
    iv_parameters (block_mx X1 0 0 X3) (block_mx ZD 0 0 ZS) W C (col_mx J H).
  Lemma reported_eq N P K1 K3 MD MS MC (X1 : 'M[F]_(N, K1)) (X3 : 'M[F]_(N, K3))
      (ZD : 'M[F]_(N, MD)) (ZS : 'M[F]_(N, MS)) (W : 'M[F]_(MD + MS)) C (J H : 'M[F]_(N, P)) : MC != 0%N ->
    let B := concentrated X1 X3 ZD ZS W C J H in
    reported_jacobians MC X1 X3 ZD ZS W C J H = (J - X1 *m usubmx B, H - X3 *m dsubmx B).
  Proof.
    move=> E B. rewrite /reported_jacobians (negbTE E) iv_convert_eq -/(concentrated X1 X3 ZD ZS W C J H) -/B.
    rewrite -{1 2}(vsubmxK B) mul_block_col !mul0mx addr0 add0r opp_col_mx add_col_mx col_mxKu col_mxKd. by [].
  Qed.
  Lemma mean_G_mixing N P K1 K3 MD MS MC (xi omega : 'cV[F]_N) (X1 : 'M[F]_(N, K1)) (X3 : 'M[F]_(N, K3))
      (ZD : 'M[F]_(N, MD)) (ZS : 'M[F]_(N, MS)) (ZC : 'M[F]_(N, MC)) (J H : 'M[F]_(N, P)) (B : 'M[F]_(K1 + K3, P)) :
    mean_G xi omega X1 X3 ZD ZS ZC (J - X1 *m usubmx B) (H - X3 *m dsubmx B) =
    mean_G xi omega X1 X3 ZD ZS ZC J H *m mixing B.
  Proof.
    rewrite -(vsubmxK B) col_mxKu col_mxKd; move: (usubmx B) (dsubmx B) => Bu Bd.
    rewrite /mean_G !jacobian_mean_eq !mul_col_mx -!scalemxAl -!mulmxA !mul_row_block !mulmx0 !mulmx1 !add0r.
    rewrite !mul_row_col !mul0mx addr0 add0r !mulNmx. congr (col_mx _ (_ *: (_ *m row_mx _ _))).
    rewrite !times_add !times_opp !times_mul !mulNmx addrACA. by [].
  Qed.

  Lemma theta_block P K (V : 'M[F]_(P + K)) (B : 'M[F]_(K, P)) : ulsubmx (mixing B *m V *m (mixing B)^T) = ulsubmx V.
  Proof.
    rewrite -{1}(submxK V) /mixing tr_block_mx !mulmx_block block_mxKul.
    by rewrite !trmx1 !trmx0 !mul0mx !mulmx0 !addr0 !mul1mx !mulmx1.
  Qed.
  Lemma linear_block P K (V : 'M[F]_(P + K)) (B : 'M[F]_(K, P)) :
    drsubmx (mixing (- B) *m V *m (mixing (- B))^T) =
    drsubmx V - B *m ursubmx V - dlsubmx V *m B^T + B *m ulsubmx V *m B^T.
  Proof.
    rewrite -{1}(submxK V) /mixing tr_block_mx !mulmx_block block_mxKdr.
    rewrite trmx1 !mul1mx !mulmx1 linearN /= !mulNmx !mulmxN !mulmxDl !mulNmx opprD opprK.
    rewrite [LHS]addrC [X in X + _ = _]addrC [X in _ + X = _]addrC addrA. by [].
  Qed.

  Lemma unadjusted_covariances_psd M P (W S : 'M[F]_M) (G : 'M[F]_(M, P)) V : symmetric W -> positive_semidefinite W ->
    inverse_of V (gmm_information W G) -> positive_semidefinite (parameter_covariances W S G V true).
  Proof.
    move=> SW PW I x. rewrite /parameter_covariances symmetrised_quadratic /quadratic.
    have SV := inverse_symmetric (information_symmetric G SW) I.
    have -> : x^T *m V *m x = (G *m (V *m x))^T *m W *m (G *m (V *m x)).
    { rewrite !trmx_mul SV. have -> : x^T *m V *m G^T *m W *m (G *m (V *m x)) = x^T *m (V *m (gmm_information W G)) *m (V *m x) by rewrite /gmm_information !mulmxA.
      by rewrite I mulmx1 mulmxA. }
    exact: PW.
  Qed.

  Lemma centered_outer N M (g : 'M[F]_(N.+1, M)) :
    over N.+1 *: outer (centered g) = over N.+1 *: outer g - column_mean g *m (column_mean g)^T.
  Proof.
    apply/matrixP => i j. rewrite /outer 6!mxE !mxE big_ord1 !mxE.
    set a := over N.+1 * \sum_n g n i. set b := over N.+1 * \sum_n g n j.
    transitivity (over N.+1 * (\sum_n (g n i * g n j - g n i * b - (a * g n j - a * b)))).
    { congr (_ * _). apply: eq_bigr => n _. by rewrite !mxE mulrBl !mulrBr. }
    rewrite !sumrB -mulr_sumr -mulr_suml sumr_const card_ord.
    have Z : (N.+1)%:R != 0 :> F by rewrite pnatr_eq0.
    have A : \sum_n g n i = N.+1%:R * a by rewrite /a mulrA mulfV ?mul1r.
    have B : \sum_n g n j = N.+1%:R * b by rewrite /b mulrA mulfV ?mul1r.
    rewrite A B -[a * b *+ _]mulr_natl [a * (_ * b)]mulrCA subrr subr0 mulrBr -[_ * a * b]mulrA [X in _ - X]mulrA mulVf // mul1r.
    congr (_ * _ - _). by apply: eq_bigr => n _; rewrite mxE.
  Qed.

  Lemma centered_mean N M (g : 'M[F]_(N.+1, M)) : column_mean (centered g) = 0.
  Proof.
    apply/colP => i. rewrite !mxE. have -> : \sum_n centered g n i = \sum_n (g n i - column_mean g i 0) by apply: eq_bigr => n _; rewrite mxE.
    rewrite sumrB sumr_const card_ord mxE -mulr_natl mulrA mulfV ?mul1r ?subrr ?mulr0 // pnatr_eq0. by [].
  Qed.
  Lemma symmetrised_minus n (A B : 'M[F]_n) : symmetric B -> symmetrised (A - B) = symmetrised A - B.
  Proof.
    move=> S. rewrite -{2}(symmetrised_id S) /symmetrised -scalerBr. congr (_ *: _).
    by rewrite linearB /= opprD addrACA.
  Qed.
  Lemma inverse_unique n (A B C : 'M[F]_n) : inverse_of A C -> inverse_of B C -> A = B.
  Proof. move=> HA HB. have := mulmx1C HB => HB'. by rewrite -[A]mulmx1 -HB' mulmxA HA mul1mx. Qed.
End Proofs.

Lemma invert_reported A (inv pinv diagonal : outcome A) nan pseudo a r :
  approximately_invert inv pinv diagonal nan pseudo = Some (a, r) ->
  (r = Some InvertedDiagonal <-> (pseudo \/ inv = RaisedLinAlg) /\ pinv = RaisedLinAlg /\ diagonal = RaisedLinAlg) /\
  (r = Some NullValues <->
     ~~ pseudo /\ inv = RaisedValueError \/ (pseudo \/ inv = RaisedLinAlg) /\ pinv = RaisedValueError \/
     (pseudo \/ inv = RaisedLinAlg) /\ pinv = RaisedLinAlg /\ diagonal = RaisedValueError) /\
  r <> Some PseudoInverse.
Proof.
  case: pseudo; case: inv => [i||| ]; case: pinv => [p||| ]; case: diagonal => [d||| ]; rewrite /approximately_invert /= => H;
    try (by []); injection H => <- _; (split; [split|split; [split|]]); intuition congruence.
Qed.

Lemma invert_report A (inv pinv diagonal : outcome A) nan pseudo a r :
  approximately_invert inv pinv diagonal nan pseudo = Some (a, r) ->
  (r = None -> Returned a = pinv \/ Returned a = diagonal \/ (pseudo = false /\ Returned a = inv)) /\
  (r <> None -> a = nan).
Proof.
  case: pseudo; case: inv => [i||| ]; case: pinv => [p||| ]; case: diagonal => [d||| ]; rewrite /approximately_invert /= => H;
    try (by []); injection H => <- <-; split => E; try (by []); auto.
Qed.
