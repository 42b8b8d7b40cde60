(** Proofs about efficiency and exact identification. *)
Set Warnings "-notation-overridden,-ambiguous-paths".
From mathcomp Require Import all_ssreflect all_algebra.
From Verif Require Import StatsModel StatsSpec StatsProofs EfficModel EfficSpec.
Set Implicit Arguments.
Unset Strict Implicit.
Unset Printing Implicit Defensive.
Import Order.TTheory GRing.Theory Num.Theory.
Local Open Scope ring_scope.

Section Efficiency.
  Context {F : realFieldType}.

  Lemma quadratic_congruence n m (L : 'M[F]_(n, m)) (S : 'M[F]_m) x : quadratic (L *m S *m L^T) x = quadratic S (L^T *m x).
  Proof. by rewrite /quadratic trmx_mul trmxK !mulmxA. Qed.
  Lemma quadratic_difference n (A B : 'M[F]_n) x : quadratic (A - B) x = quadratic A x - quadratic B x.
  Proof. by rewrite /quadratic mulmxBr mulmxBl mxE; congr (_ + _); rewrite mxE. Qed.
  Lemma quadratic_diagonal n (A : 'M[F]_n) i : quadratic A (delta_mx i 0) = A i i.
  Proof. by rewrite /quadratic trmx_delta -rowE -colE !mxE. Qed.
  (** Standard errors are ordered if covariances are. *)
  Lemma diagonal_ordered n (A B : 'M[F]_n) i : positive_semidefinite (A - B) -> B i i <= A i i.
  Proof. by move=> H; have := H (delta_mx i 0); rewrite quadratic_difference !quadratic_diagonal subr_ge0. Qed.

  (** No linear combination of moments that identifies parameters has a smaller variance. *)
  Lemma best_combination M P (S W : 'M[F]_M) (G : 'M[F]_(M, P)) (V : 'M[F]_P) (L : 'M[F]_(P, M)) :
    symmetric S -> inverse_of W S -> inverse_of V (gmm_information W G) -> L *m G = 1%:M ->
    let D := L - V *m G^T *m W in L *m S *m L^T - V = D *m S *m D^T.
  Proof.
    move=> SS IW IV LG D. have SW : W^T = W := inverse_symmetric SS IW. have IS : S *m W = 1%:M := mulmx1C IW.
    have SI : (gmm_information W G)^T = gmm_information W G by rewrite /gmm_information !trmx_mul trmxK SW mulmxA.
    have SV : V^T = V := inverse_symmetric SI IV.
    have E1 : L *m S *m (V *m G^T *m W)^T = V.
      rewrite !trmx_mul trmxK SW SV !mulmxA -(mulmxA L S W) IS mulmx1 LG mul1mx. by [].
    have E2 : V *m G^T *m W *m S *m L^T = V.
      have := congr1 trmx E1. by rewrite trmx_mul trmxK trmx_mul SS SV mulmxA.
    have E3 : V *m G^T *m W *m S *m (V *m G^T *m W)^T = V.
      rewrite -(mulmxA (V *m G^T) W S) IW mulmx1 !trmx_mul trmxK SW SV !mulmxA.
      have -> : V *m G^T *m W *m G = V *m gmm_information W G by rewrite /gmm_information !mulmxA.
      by rewrite IV mul1mx.
    rewrite /D linearB /= mulmxBl mulmxBr mulmxBl [(_ - _) *m (_)^T]mulmxBl E1 E2 E3. by rewrite subrr subr0.
  Qed.

  Lemma sandwich_form M P (W S : 'M[F]_M) (G : 'M[F]_(M, P)) V : symmetric W -> symmetric S -> inverse_of V (gmm_information W G) ->
    let L := V *m G^T *m W in parameter_covariances W S G V false = L *m S *m L^T /\ L *m G = 1%:M.
  Proof.
    move=> SW SS IV L.
    have SI : (gmm_information W G)^T = gmm_information W G by rewrite /gmm_information !trmx_mul trmxK SW mulmxA.
    have SV : V^T = V := inverse_symmetric SI IV.
    split; last by rewrite -IV /L /gmm_information !mulmxA.
    have E : V *m G^T *m W *m S *m W *m G *m V = L *m S *m L^T by rewrite /L !trmx_mul trmxK SW SV !mulmxA.
    rewrite /parameter_covariances E. apply: symmetrised_id. by rewrite /symmetric trmx_mul trmxK trmx_mul SS mulmxA.
  Qed.
  Lemma efficient_form M P (W S : 'M[F]_M) (G : 'M[F]_(M, P)) V unadjusted : symmetric S -> inverse_of W S -> inverse_of V (gmm_information W G) ->
    parameter_covariances W S G V unadjusted = V.
  Proof.
    move=> SS IW IV. rewrite (optimal_covariances unadjusted IW IV) /parameter_covariances. apply: symmetrised_id.
    have SW : W^T = W := inverse_symmetric SS IW.
    have SI : (gmm_information W G)^T = gmm_information W G by rewrite /gmm_information !trmx_mul trmxK SW mulmxA.
    exact: inverse_symmetric SI IV.
  Qed.

  Lemma optimal_weights_efficient M P (S W Wo : 'M[F]_M) (G : 'M[F]_(M, P)) (V Vo : 'M[F]_P) unadjusted :
    symmetric S -> positive_semidefinite S -> symmetric W -> inverse_of Wo S ->
    inverse_of V (gmm_information W G) -> inverse_of Vo (gmm_information Wo G) ->
    positive_semidefinite (parameter_covariances W S G V false - parameter_covariances Wo S G Vo unadjusted).
  Proof.
    move=> SS PS SW IWo IV IVo x. have [-> LG] := sandwich_form SW SS IV. rewrite (efficient_form unadjusted SS IWo IVo).
    rewrite (best_combination SS IWo IVo LG) quadratic_congruence. exact: PS.
  Qed.

  (** Using additional moments. *)
  Lemma more_moments_help M1 M2 P (S11 : 'M[F]_M1) (S12 : 'M[F]_(M1, M2)) (S22 : 'M[F]_M2) (G1 : 'M[F]_(M1, P)) (G2 : 'M[F]_(M2, P))
      (W1 : 'M[F]_M1) (W : 'M[F]_(M1 + M2)) (V1 V : 'M[F]_P) unadjusted :
    let S := block_mx S11 S12 S12^T S22 in let G := col_mx G1 G2 in
    symmetric S -> positive_semidefinite S -> inverse_of W1 S11 -> inverse_of W S ->
    inverse_of V1 (gmm_information W1 G1) -> inverse_of V (gmm_information W G) ->
    positive_semidefinite (parameter_covariances W1 S11 G1 V1 unadjusted - parameter_covariances W S G V unadjusted).
  Proof.
    move=> S G SS PS I1 IW IV1 IV x.
    have SS1 : symmetric S11.
      move: SS; rewrite /symmetric /S tr_block_mx trmxK => /eq_block_mx [E _ _ _]. exact: E.
    rewrite (efficient_form unadjusted SS1 I1 IV1) (efficient_form unadjusted SS IW IV).
    pose L := row_mx (V1 *m G1^T *m W1) (0 : 'M[F]_(P, M2)).
    have LG : L *m G = 1%:M by rewrite /L /G mul_row_col mul0mx addr0 -IV1 /gmm_information !mulmxA.
    have SW1 : W1^T = W1 := inverse_symmetric SS1 I1.
    have SI : (gmm_information W1 G1)^T = gmm_information W1 G1 by rewrite /gmm_information !trmx_mul trmxK SW1 mulmxA.
    have SV1 : V1^T = V1 := inverse_symmetric SI IV1.
    have LS : L *m S *m L^T = V1.
      rewrite /L /S mul_row_block !mul0mx !addr0 tr_row_mx mul_row_col trmx0 mulmx0 addr0.
      rewrite -(mulmxA (V1 *m G1^T) W1 S11) I1 mulmx1 !trmx_mul trmxK SW1 SV1 !mulmxA.
      have -> : V1 *m G1^T *m W1 *m G1 = V1 *m gmm_information W1 G1 by rewrite /gmm_information !mulmxA.
      by rewrite IV1 mul1mx.
    rewrite -{1}LS (best_combination SS IW IV LG) quadratic_congruence. exact: PS.
  Qed.

  (* ---------- Exact identification ---------- *)
  Lemma exact_parameters R K (X Z : 'M[F]_(R, K)) (W A B : 'M[F]_K) (y : 'cV[F]_R) :
    inverse_of A (iv_information X Z W) -> inverse_of B (Z^T *m X) -> iv_parameters X Z W A y = B *m (Z^T *m y).
  Proof.
    move=> IA IB. have := mulmx1C IB => IB'. rewrite /iv_parameters.
    have E : Z^T *m y = Z^T *m X *m (B *m (Z^T *m y)) by rewrite !mulmxA IB' mul1mx.
    rewrite {1}E !mulmxA.
    have -> : A *m X^T *m Z *m W *m Z^T *m X = A *m iv_information X Z W by rewrite /iv_information trmx_mul trmxK !mulmxA.
    by rewrite IA mul1mx.
  Qed.
  Lemma exact_moments R K (X Z : 'M[F]_(R, K)) (W A B : 'M[F]_K) (y : 'cV[F]_R) :
    inverse_of A (iv_information X Z W) -> inverse_of B (Z^T *m X) -> Z^T *m iv_residuals X Z W A y = 0.
  Proof.
    move=> IA IB. rewrite /iv_residuals mulmxBr (exact_parameters _ IA IB) !mulmxA (mulmx1C IB) mul1mx. exact: subrr.
  Qed.
  Lemma exact_covariances P (W S G V B : 'M[F]_P) : symmetric W -> symmetric S -> inverse_of V (gmm_information W G) -> inverse_of B G ->
    parameter_covariances W S G V false = B *m S *m B^T.
  Proof.
    move=> SW SS IV IB. have [-> LG] := sandwich_form SW SS IV. set L := V *m G^T *m W in LG *.
    by rewrite (inverse_unique LG IB).
  Qed.

  (* ---------- Optimal instruments ---------- *)
  Section Instruments.
    Variables (N E P M : nat) (Omega Oi : 'M[F]_E) (J : 'I_N -> 'M[F]_(E, P)) (Z : 'I_N -> 'M[F]_(E, M)).
    Local Notation summed_jacobian := (summed_jacobian J).
    Local Notation summed_covariances := (summed_covariances Omega).
    Let Zo n := Oi *m J n.
    Hypothesis SO : symmetric Omega.
    Hypothesis PO : positive_semidefinite Omega.
    Hypothesis IO : inverse_of Oi Omega.
    Let SOi : Oi^T = Oi := inverse_symmetric SO IO.

    Lemma optimal_jacobian : summed_jacobian Zo = summed_covariances Zo.
    Proof.
      apply: eq_bigr => n _. rewrite /Zo trmx_mul SOi -(mulmxA (J n)^T Oi Omega) IO mulmx1 !mulmxA. by [].
    Qed.
    Lemma summed_symmetric Q (Z' : 'I_N -> 'M[F]_(E, Q)) : symmetric (summed_covariances Z').
    Proof.
      rewrite /symmetric /summed_covariances linear_sum /=. apply: eq_bigr => n _. by rewrite !trmx_mul trmxK SO mulmxA.
    Qed.
    Lemma optimal_instruments_covariance (Wo Vo : 'M[F]_P) : symmetric Wo -> inverse_of Vo (gmm_information Wo (summed_jacobian Zo)) ->
      let H := parameter_covariances Wo (summed_covariances Zo) (summed_jacobian Zo) Vo false in
      inverse_of H (summed_jacobian Zo) /\ symmetric H.
    Proof.
      move=> SWo IVo. set G := summed_jacobian Zo in IVo *. rewrite -optimal_jacobian -/G.
      have SG : symmetric G by rewrite /G optimal_jacobian; exact: summed_symmetric.
      have [-> LG] := sandwich_form SWo SG IVo. set L := Vo *m G^T *m Wo in LG *.
      rewrite LG mul1mx. have SL : symmetric L := inverse_symmetric SG LG. by rewrite SL.
    Qed.
    Lemma optimal_instruments_efficient (W : 'M[F]_M) (V Wo Vo : 'M[F]_P) : symmetric W -> symmetric Wo ->
      inverse_of V (gmm_information W (summed_jacobian Z)) -> inverse_of Vo (gmm_information Wo (summed_jacobian Zo)) ->
      positive_semidefinite (parameter_covariances W (summed_covariances Z) (summed_jacobian Z) V false
        - parameter_covariances Wo (summed_covariances Zo) (summed_jacobian Zo) Vo false).
    Proof.
      move=> SW SWo IV IVo. have [] := optimal_instruments_covariance SWo IVo. set H := parameter_covariances Wo _ _ _ _ => IH SH x.
      have [-> LG] := sandwich_form SW (summed_symmetric Z) IV. set L := V *m (summed_jacobian Z)^T *m W in LG *.
      pose D n := L *m (Z n)^T - H *m (Zo n)^T.
      have E1 : \sum_n L *m (Z n)^T *m Omega *m (Z n *m L^T) = L *m summed_covariances Z *m L^T.
        rewrite /summed_covariances mulmx_sumr mulmx_suml. apply: eq_bigr => n _. by rewrite !mulmxA.
      have E2 : \sum_n L *m (Z n)^T *m Omega *m (Zo n *m H) = H.
        rewrite -[RHS]mul1mx -LG /summed_jacobian mulmx_sumr mulmx_suml. apply: eq_bigr => n _.
        rewrite /Zo !mulmxA -(mulmxA (L *m (Z n)^T) Omega Oi) (mulmx1C IO) mulmx1. by [].
      have E3 : \sum_n H *m (Zo n)^T *m Omega *m (Z n *m L^T) = H.
        transitivity (H^T); last exact: SH. rewrite -[X in _ = X^T]E2 linear_sum /=. apply: eq_bigr => n _.
        by rewrite (trmx_mul (L *m (Z n)^T *m Omega)) (trmx_mul (Zo n) H) SH (trmx_mul _ Omega) SO (trmx_mul L) trmxK !mulmxA.
      have E4 : \sum_n H *m (Zo n)^T *m Omega *m (Zo n *m H) = H.
        rewrite -[RHS]mul1mx -IH optimal_jacobian /summed_covariances mulmx_sumr mulmx_suml.
        apply: eq_bigr => n _. by rewrite !mulmxA.
      have -> : L *m summed_covariances Z *m L^T - H = \sum_n D n *m Omega *m (D n)^T.
        transitivity (\sum_n (L *m (Z n)^T *m Omega *m (Z n *m L^T) - L *m (Z n)^T *m Omega *m (Zo n *m H)
            - (H *m (Zo n)^T *m Omega *m (Z n *m L^T) - H *m (Zo n)^T *m Omega *m (Zo n *m H)))).
          by rewrite !sumrB E1 E2 E3 E4 subrr subr0.
        apply: eq_bigr => n _. have -> : (D n)^T = Z n *m L^T - Zo n *m H by rewrite /D raddfB /= (trmx_mul L) (trmx_mul H) !trmxK SH.
        by rewrite /D !mulmxBl !mulmxBr.
      rewrite /quadratic mulmx_sumr mulmx_suml summxE. apply: sumr_ge0 => n _.
      have := quadratic_congruence (D n) Omega x. rewrite /quadratic => ->. exact: PO.
    Qed.
  End Instruments.

  Lemma at_least_difference n (A B : 'M[F]_n) : positive_semidefinite (A - B) -> at_least A B.
  Proof. by move=> H x; have := H x; rewrite quadratic_difference subr_ge0. Qed.
  Lemma at_least_diagonal n (A B : 'M[F]_n) i : at_least A B -> B i i <= A i i.
  Proof. by move=> H; have := H (delta_mx i 0); rewrite !quadratic_diagonal. Qed.
End Efficiency.

(* ---------- Tests of restrictions ---------- *)
Section Tests.
  Context {F : realFieldType}.
  Lemma wald_quadratic Q N (I : 'M[F]_Q) r : wald_statistic N I r = N%:R * quadratic I r.
  Proof. by []. Qed.
  Lemma lm_quadratic M P N W (g : 'cV[F]_M) (G : 'M[F]_(M, P)) V : lm_statistic N W g G V = N%:R * quadratic V (G^T *m W *m g).
  Proof. by []. Qed.
  Lemma scaled_difference M N s s' (W : 'M[F]_M) g g' :
    distance_statistic N s (gmm_objective s N W g) s' (gmm_objective s' N W g') = N%:R * (quadratic W g - quadratic W g').
  Proof.
    rewrite /distance_statistic /gmm_objective /quadratic mulrBr. by case: s; case: s'; rewrite ?mul1r // ?[_ * N%:R]mulrC.
  Qed.
  Lemma scaled_minimiser K Q M s N (R : 'M[F]_(Q, K)) q (W : 'M[F]_M) (g : 'cV[F]_K -> 'cV[F]_M) b : (0 < N)%N ->
    restricted_minimiser R q (fun b => gmm_objective s N W (g b)) b -> restricted_minimiser R q (fun b => quadratic W (g b)) b.
  Proof.
    move=> HN [E H]; split=> // b' E'. have := H b' E'. rewrite /gmm_objective. case: s H => // H.
    by rewrite ler_pmul2r // ltr0n.
  Qed.

  Section Affine.
    Variables (K M Q : nat) (W : 'M[F]_M) (G : 'M[F]_(M, K)) (g : 'cV[F]_K -> 'cV[F]_M) (V : 'M[F]_K) (R : 'M[F]_(Q, K)) (q : 'cV[F]_Q)
      (I : 'M[F]_Q) (b br : 'cV[F]_K).
    Hypothesis SW : symmetric W.
    Hypothesis PW : positive_semidefinite W.
    Hypothesis affine : forall c d, g (c + d) = g c + G *m d.
    Hypothesis optimum : G^T *m W *m g b = 0.
    Hypothesis IV : inverse_of V (gmm_information W G).
    Hypothesis II : inverse_of I (wald_matrix V R).
    Hypothesis restricted : restricted_minimiser R q (fun b => quadratic W (g b)) br.
    Let H := gmm_information W G.
    Let SH : H^T = H. Proof. by rewrite /H /gmm_information !trmx_mul trmxK SW mulmxA. Qed.
    Let SV : V^T = V := inverse_symmetric SH IV.
    Let HV : H *m V = 1%:M := mulmx1C IV.
    Let rho := R *m b - q.
    Let ds := - (V *m R^T *m (I *m rho)).
    Let e := br - b - ds.
    Lemma wald_inverse_symmetric : I^T = I.
    Proof. apply: (inverse_symmetric _ II). by rewrite /symmetric /wald_matrix !trmx_mul trmxK SV mulmxA. Qed.
    Lemma moment_increase d : quadratic W (g (b + d)) = quadratic W (g b) + quadratic H d.
    Proof.
      rewrite affine /quadratic [(_ + _)^T]linearD /= !mulmxDl !mulmxDr.
      have E1 : (G *m d)^T *m W *m g b = 0 by rewrite trmx_mul -!mulmxA (mulmxA G^T) optimum mulmx0.
      have E2 : (g b)^T *m W *m (G *m d) = 0.
        have := congr1 trmx E1. by rewrite trmx0 !trmx_mul !trmxK SW !mulmxA.
      rewrite E1 E2 add0r addr0 mxE. congr (_ + _). by rewrite /H /gmm_information trmx_mul !mulmxA.
    Qed.
    Lemma restricted_step : R *m (b + ds) = q.
    Proof.
      rewrite mulmxDr /ds mulmxN !mulmxA.
      have -> : R *m V *m R^T *m I *m rho = rho by rewrite (mulmx1C II) mul1mx.
      by rewrite /rho opprB addrC subrK.
    Qed.
    Lemma remainder_orthogonal : R *m e = 0.
    Proof.
      have [E _] := restricted. have := restricted_step. rewrite mulmxDr => E'.
      by rewrite /e -addrA -opprD mulmxBr E mulmxDr E' subrr.
    Qed.
    Lemma step_gradient : ds^T *m H = - ((I *m rho)^T *m R).
    Proof.
      rewrite /ds linearN /= trmx_mul (trmx_mul V) trmxK SV mulNmx (mulmxA _ R V) -(mulmxA _ V H).
      have -> : V *m H = 1%:M by exact: IV. by rewrite mulmx1.
    Qed.
    Lemma step_orthogonal : ds^T *m H *m e = 0.
    Proof. by rewrite step_gradient mulNmx -mulmxA remainder_orthogonal mulmx0 oppr0. Qed.
    Lemma step_value : quadratic H ds = quadratic I rho.
    Proof.
      rewrite /quadratic step_gradient /ds mulNmx mulmxN opprK (trmx_mul I) wald_inverse_symmetric !mulmxA.
      have -> : rho^T *m I *m R *m V *m R^T *m I *m rho = rho^T *m I *m (wald_matrix V R *m I) *m rho.
        by rewrite /wald_matrix !mulmxA.
      by rewrite (mulmx1C II) mulmx1.
    Qed.
    Lemma sum_value : quadratic H (ds + e) = quadratic H ds + quadratic H e.
    Proof.
      have E := step_orthogonal. have E' : e^T *m H *m ds = 0.
        have := congr1 trmx E. by rewrite trmx0 (trmx_mul (ds^T *m H) e) (trmx_mul ds^T H) trmxK SH mulmxA.
      rewrite /quadratic. have -> : (ds + e)^T = ds^T + e^T by exact: raddfD.
      by rewrite (mulmxDl ds^T) (mulmxDl (ds^T *m H)) !(mulmxDr _ ds e) E E' add0r addr0 mxE.
    Qed.
    Lemma step_sum : br = b + (ds + e).
    Proof. by rewrite /e [ds + _]addrC subrK addrC subrK. Qed.
    Lemma remainder_value : quadratic H e = 0.
    Proof.
      have [_ Hm] := restricted. have := Hm _ restricted_step. rewrite {1}step_sum !moment_increase sum_value ler_add2l.
      rewrite ger_addl => HL. apply/eqP; rewrite eq_le HL /=.
      have -> : quadratic H e = quadratic W (G *m e) by rewrite /quadratic /H /gmm_information trmx_mul !mulmxA.
      exact: PW.
    Qed.
    Lemma distance_is_wald : quadratic W (g br) - quadratic W (g b) = quadratic I rho.
    Proof. by rewrite {1}step_sum moment_increase sum_value remainder_value step_value addr0 addrC addKr. Qed.
    Lemma lm_is_wald : quadratic V (G^T *m W *m g br) = quadratic I rho.
    Proof.
      have -> : g br = g b + G *m (ds + e) by rewrite {1}step_sum affine.
      rewrite (mulmxDr _ (g b)) optimum add0r (mulmxA _ G).
      have -> : quadratic V (G^T *m W *m G *m (ds + e)) = quadratic H (ds + e).
        rewrite -/(gmm_information W G) -/H /quadratic (trmx_mul H) SH -(mulmxA _ H V) HV mulmx1 mulmxA. by [].
      by rewrite sum_value remainder_value step_value addr0.
    Qed.
  End Affine.

  Section Linear.
    Variables (N K M Q : nat) (X : 'M[F]_(N, K)) (Z : 'M[F]_(N, M)) (W : 'M[F]_M) (C : 'M[F]_K) (y : 'cV[F]_N).
    Lemma linear_affine c d : linear_moments X Z y (c + d) = linear_moments X Z y c + linear_jacobian X Z *m d.
    Proof.
      rewrite /linear_moments /linear_jacobian -scalemxAl -scalerDr. congr (_ *: _).
      by rewrite mulmxN mulNmx -mulmxA -mulmxBr (mulmxDr X) opprD addrA.
    Qed.
    Lemma linear_gradient b : first_order X Z W y b -> (linear_jacobian X Z)^T *m W *m linear_moments X Z y b = 0.
    Proof.
      rewrite /first_order /linear_moments /linear_jacobian => E.
      have -> : (N%:R^-1 *: (Z^T *m - X))^T = - (N%:R^-1 *: (X^T *m Z)).
        by rewrite mulmxN scalerN [LHS]raddfN /= [(_ *: _)^T]linearZ /= trmx_mul trmxK.
      by rewrite !mulNmx -scalemxAr -!scalemxAl !mulmxA E !scaler0 oppr0.
    Qed.
  End Linear.

  Lemma tests_agree N K M Q (X : 'M[F]_(N, K)) (Z : 'M[F]_(N, M)) (W S : 'M[F]_M) (C Vi : 'M[F]_K) (y : 'cV[F]_N) (R : 'M[F]_(Q, K))
      (q : 'cV[F]_Q) (I : 'M[F]_Q) (br : 'cV[F]_K) (unadjusted s s' : bool) :
    (0 < N)%N -> symmetric S -> positive_semidefinite W -> inverse_of W S -> inverse_of C (iv_information X Z W) ->
    let g := linear_moments X Z y in let G := linear_jacobian X Z in inverse_of Vi (gmm_information W G) ->
    let V := parameter_covariances W S G Vi unadjusted in inverse_of I (wald_matrix V R) ->
    restricted_minimiser R q (fun b => gmm_objective s N W (g b)) br ->
    let b := iv_parameters X Z W C y in
    let wald := wald_statistic N I (R *m b - q) in
    distance_statistic N s (gmm_objective s N W (g br)) s' (gmm_objective s' N W (g b)) = wald /\
    lm_statistic N W (g br) G V = wald.
  Proof.
    move=> HN SS PW IW IC g G IVi V II Hr b wald. have SW : symmetric W := inverse_symmetric SS IW.
    have EV : V = Vi := efficient_form unadjusted SS IW IVi. rewrite EV in II *.
    have Hr' := scaled_minimiser HN Hr.
    have FO : G^T *m W *m g b = 0 by apply: linear_gradient; exact: iv_foc IC _.
    rewrite scaled_difference lm_quadratic /wald wald_quadratic. split; congr (_ * _).
    - exact: (distance_is_wald SW PW (linear_affine X Z y) FO IVi II Hr').
    - exact: (lm_is_wald SW PW (linear_affine X Z y) FO IVi II Hr').
  Qed.
  Lemma fixed_lm_zero N K M (X : 'M[F]_(N, K)) (Z : 'M[F]_(N, M)) (W : 'M[F]_M) (C V : 'M[F]_K) (y : 'cV[F]_N) :
    inverse_of C (iv_information X Z W) ->
    lm_statistic N W (linear_moments X Z y (iv_parameters X Z W C y)) (linear_jacobian X Z) V = 0.
  Proof.
    move=> IC. rewrite lm_quadratic linear_gradient; last exact: iv_foc IC _. by rewrite /quadratic mulmx0 mxE mulr0.
  Qed.

  (** Estimates with fixed parameters minimise the objective among parameters that satisfy these restrictions. *)
  Lemma fixed_moments N K1 K2 M (X1 : 'M[F]_(N, K1)) (X2 : 'M[F]_(N, K2)) (Z : 'M[F]_(N, M)) y b q :
    linear_moments (row_mx X1 X2) Z y (col_mx b q) = linear_moments X1 Z (y - X2 *m q) b.
  Proof. by rewrite /linear_moments mul_row_col opprD addrA [y - _ - _]addrAC. Qed.
  Lemma fixed_restricted N K1 K2 M (X1 : 'M[F]_(N, K1)) (X2 : 'M[F]_(N, K2)) (Z : 'M[F]_(N, M)) (W : 'M[F]_M) (C1 : 'M[F]_K1) y q s :
    symmetric W -> positive_semidefinite W -> inverse_of C1 (iv_information X1 Z W) ->
    restricted_minimiser (row_mx 0 1%:M) q (fun b => gmm_objective s N W (linear_moments (row_mx X1 X2) Z y b))
      (col_mx (iv_parameters X1 Z W C1 (y - X2 *m q)) q).
  Proof.
    move=> SW PW IC. split=> [|b' E]; first by rewrite mul_row_col mul0mx mul1mx add0r.
    have Eb : b' = col_mx (usubmx b') q.
      by rewrite -{1}[b']vsubmxK; congr col_mx; rewrite -E -{2}[b']vsubmxK mul_row_col mul0mx mul1mx add0r.
    rewrite Eb !fixed_moments. set yq := y - X2 *m q.
    have L := iv_minimises IC yq (usubmx b') SW PW. rewrite /iv_objective in L.
    have Q : forall g : 'cV[F]_M, quadratic W (N%:R^-1 *: g) = N%:R^-1 * N%:R^-1 * quadratic W g.
      move=> g. by rewrite /quadratic [(_ *: _)^T]linearZ /= -!scalemxAl -scalemxAr !mxE mulrA.
    have L' : quadratic W (linear_moments X1 Z yq (iv_parameters X1 Z W C1 yq)) <= quadratic W (linear_moments X1 Z yq (usubmx b')).
      rewrite /linear_moments !Q. apply: ler_wpmul2l => //. by rewrite mulr_ge0 // invr_ge0 ler0n.
    rewrite /gmm_objective. case: s => //. apply: ler_wpmul2r => //. exact: ler0n.
  Qed.
End Tests.
