(** Proofs about the initial weighting matrix, steps and the reduced Hessian. *)
Set Warnings "-notation-overridden,-ambiguous-paths".
From mathcomp Require Import all_ssreflect all_algebra.
From Verif Require Import StatsModel StatsSpec StatsProofs SolveModel SolveSpec.
Set Implicit Arguments.
Unset Strict Implicit.
Unset Printing Implicit Defensive.
Import Order.TTheory GRing.Theory Num.Theory.
Local Open Scope ring_scope.

Section Lemmas.
  Context {F : realFieldType}.

  (* ---------- Two-stage least squares ---------- *)

  Lemma exactly_identified N M (X Z : 'M[F]_(N, M)) W C (y : 'cV[F]_N) : Z^T *m X \in unitmx -> inverse_of C (iv_information X Z W) ->
    iv_parameters X Z W C y = invmx (Z^T *m X) *m (Z^T *m y).
  Proof. move=> U I. apply: (iv_exact I). rewrite mulmxBr mulmxA mulKVmx // subrr. by []. Qed.

  Lemma inverse_symmetric n (W S : 'M[F]_n) : S^T = S -> W *m S = 1%:M -> W^T = W.
  Proof.
    move=> E I. have J : S *m W = 1%:M by exact: mulmx1C. have K : W^T *m S = 1%:M by rewrite -{1}E -trmx_mul J trmx1.
    by rewrite -[LHS]mulmx1 -J mulmxA K mul1mx.
  Qed.

  Lemma two_stage_first_order N K M (X : 'M[F]_(N, K)) (Z : 'M[F]_(N, M)) W (y : 'cV[F]_N) b : (0 < N)%N ->
    W *m (N%:R^-1 *: (Z^T *m Z)) = 1%:M -> (two_stage X Z y b <-> first_order X Z W y b).
  Proof.
    move=> N0 I. have n0 : (N%:R : F) != 0 by rewrite pnatr_eq0 -lt0n.
    have S : W^T = W. { apply: inverse_symmetric I. by rewrite linearZ /= trmx_mul trmxK. }
    have J : (N%:R^-1 *: W) *m (Z^T *m Z) = 1%:M by rewrite -scalemxAl scalemxAr.
    pose fit0 := (N%:R^-1 *: W) *m (Z^T *m X).
    have F0 : least_squares Z X fit0.
    { rewrite /least_squares mulmxBr mulmxA /fit0 mulmxA (mulmx1C J) mul1mx subrr. by []. }
    have FU : forall fit, least_squares Z X fit -> fit = fit0.
    { move=> fit; rewrite /least_squares mulmxBr => /eqP; rewrite subr_eq0 => /eqP E.
      rewrite /fit0 E. by rewrite (mulmxA Z^T Z fit) (mulmxA _ (Z^T *m Z) fit) J mul1mx. }
    have E : (Z *m fit0)^T *m (y - Z *m fit0 *m b) = N%:R^-1 *: (X^T *m Z *m W *m Z^T *m (y - X *m b)).
    { pose V := N%:R^-1 *: W. have VS : V^T = V by rewrite linearZ /= S.
      have T : (Z *m fit0)^T = N%:R^-1 *: (X^T *m Z *m W *m Z^T).
      { rewrite trmx_mul /fit0 -/V trmx_mul VS trmx_mul trmxK /V -scalemxAr -scalemxAl. by []. }
      rewrite T -scalemxAl; congr (_ *: _). rewrite -!(mulmxA _ Z^T); congr (_ *m _). rewrite !mulmxBr; congr (_ - _).
      by rewrite /fit0 -/V !mulmxA (mulmx1C J) mul1mx. }
    split.
    - move=> [fit /FU -> L]. rewrite /least_squares E in L. move/eqP: L; rewrite scaler_eq0 invr_eq0 (negbTE n0) /= => /eqP. by [].
    - move=> L. exists fit0 => //. rewrite /least_squares E. rewrite /first_order in L. by rewrite L scaler0.
  Qed.

  Lemma block_inverse m n (V : 'M[F]_(m + n)) (A : 'M[F]_m) (B : 'M[F]_n) : V *m block_mx A 0 0 B = 1%:M ->
    [/\ ulsubmx V *m A = 1%:M, drsubmx V *m B = 1%:M, ursubmx V = 0 & dlsubmx V = 0].
  Proof.
    rewrite -{1}[V]submxK mulmx_block !mulmx0 !addr0 !add0r scalar_mx_block => /eq_block_mx[E1 E2 E3 E4].
    split=> //.
    - by rewrite -[LHS]mulmx1 -(mulmx1C E4) mulmxA E2 mul0mx.
    - by rewrite -[LHS]mulmx1 -(mulmx1C E1) mulmxA E3 mul0mx.
  Qed.

  Lemma initial_weights_blocks N MD MS MC (ZD : 'M[F]_(N, MD)) (ZS : 'M[F]_(N, MS)) (ZC : 'M[F]_(N, MC)) W :
    W *m two_stage_matrix ZD ZS ZC = 1%:M ->
    exists WD WS, [/\ linear_W W = block_mx WD 0 0 WS, WD *m (N%:R^-1 *: (ZD^T *m ZD)) = 1%:M &
                      WS *m (N%:R^-1 *: (ZS^T *m ZS)) = 1%:M].
  Proof.
    move=> /block_inverse[E _ _ _]. have [E1 E2 E3 E4] := block_inverse E.
    exists (ulsubmx (ulsubmx W)), (drsubmx (ulsubmx W)). split=> //. by rewrite /linear_W -[LHS]submxK E3 E4.
  Qed.

  Lemma first_order_blocks N K1 K3 MD MS (X1 : 'M[F]_(N, K1)) (X3 : 'M[F]_(N, K3)) (ZD : 'M[F]_(N, MD)) (ZS : 'M[F]_(N, MS)) WD WS
      (delta costs : 'cV[F]_N) beta gamma :
    first_order (linear_X X1 X3) (linear_Z ZD ZS) (block_mx WD 0 0 WS) (col_mx delta costs) (col_mx beta gamma) <->
    first_order X1 ZD WD delta beta /\ first_order X3 ZS WS costs gamma.
  Proof.
    rewrite /first_order /linear_X /linear_Z !tr_block_mx !trmx0.
    rewrite !mulmx_block !(mulmx0, mul0mx, addr0, add0r) mul_block_col !(mul0mx, addr0, add0r).
    rewrite opp_col_mx add_col_mx mul_block_col !(mul0mx, addr0, add0r).
    split; last by move=> [-> ->]; rewrite col_mx0.
    by rewrite -[0](@col_mx0 _ K1 K3) => /eq_col_mx.
  Qed.

  Lemma initial_estimates N K1 K3 MD MS MC (X1 : 'M[F]_(N, K1)) (X3 : 'M[F]_(N, K3)) (ZD : 'M[F]_(N, MD)) (ZS : 'M[F]_(N, MS))
      (ZC : 'M[F]_(N, MC)) W C (delta costs : 'cV[F]_N) beta gamma : (0 < N)%N -> W *m two_stage_matrix ZD ZS ZC = 1%:M ->
    inverse_of C (iv_information (linear_X X1 X3) (linear_Z ZD ZS) (linear_W W)) ->
    (iv_parameters (linear_X X1 X3) (linear_Z ZD ZS) (linear_W W) C (col_mx delta costs) = col_mx beta gamma <->
     two_stage X1 ZD delta beta /\ two_stage X3 ZS costs gamma).
  Proof.
    move=> N0 I J. have [WD [WS [E ED ES]]] := initial_weights_blocks I.
    rewrite (two_stage_first_order X1 delta beta N0 ED) (two_stage_first_order X3 costs gamma N0 ES) -first_order_blocks -E.
    split=> [<-|L]; first exact: iv_foc. by rewrite -(iv_unique J L).
  Qed.

  (* ---------- The reduced Hessian ---------- *)

  Lemma at_boundP lb ub (theta : F) : reflect (~ interior lb ub theta) (at_bound lb ub theta).
  Proof.
    rewrite /at_bound /interior. apply: (iffP negP) => N H; apply: N.
    - case: H => L U. apply/andP; split; [case: lb L => // l /(_ l erefl)|case: ub U => // u /(_ u erefl)]; by [].
    - move/andP: H => [L U]. by split=> b E; [rewrite E in L|rewrite E in U].
  Qed.

  Variables (P : nat) (lb ub : 'I_P -> option F) (theta : 'cV[F]_P) (H : 'M[F]_P).
  Let active p := at_bound (lb p) (ub p) (theta p 0).
  Definition masked (w : 'cV[F]_P) : 'cV[F]_P := \col_p if active p then 0 else w p 0.

  Lemma curvatureE (A : 'M[F]_P) w : curvature A w = \sum_q \sum_p w p 0 * A p q * w q 0.
  Proof.
    rewrite /curvature mxE; apply: eq_bigr => q _. rewrite mxE mulr_suml; apply: eq_bigr => p _. by rewrite mxE.
  Qed.
  Lemma reduced_curvature w : curvature (reduced_hessian lb ub theta H) w = curvature H (masked w).
  Proof.
    rewrite !curvatureE; apply: eq_bigr => q _; apply: eq_bigr => p _. rewrite !mxE -/(active p) -/(active q).
    by case: (active p); case: (active q); rewrite /= ?mulr0 ?mul0r ?mulr0.
  Qed.
  Lemma masked_free w : free_direction lb ub theta (masked w).
  Proof. by move=> p /at_boundP A; rewrite mxE /active A. Qed.
  Lemma free_masked w : free_direction lb ub theta w -> masked w = w.
  Proof.
    move=> D; apply/matrixP => p j; rewrite ord1 mxE. case: ifP => // A. by rewrite D //; apply/at_boundP.
  Qed.
  Lemma reduced_free w : free_direction lb ub theta w -> curvature (reduced_hessian lb ub theta H) w = curvature H w.
  Proof. by move=> D; rewrite reduced_curvature free_masked. Qed.
  Lemma reduced_psd : (forall w, 0 <= curvature (reduced_hessian lb ub theta H) w) <->
    (forall w, free_direction lb ub theta w -> 0 <= curvature H w).
  Proof.
    split=> G w; first by move=> D; rewrite -reduced_free. rewrite reduced_curvature. apply: G. exact: masked_free.
  Qed.
  Lemma reduced_zero p : ~ interior (lb p) (ub p) (theta p 0) -> reduced_hessian lb ub theta H *m delta_mx p (0 : 'I_1) = 0.
  Proof. move=> /at_boundP A. rewrite -colE. apply/matrixP => q j. by rewrite !mxE A orbT. Qed.
End Lemmas.

(* ---------- Steps ---------- *)

Section StepsLemmas.
  Variables (Wt Theta Results WType : Type) (P : nat).
  Variable optimize : nat -> Wt -> Theta -> Theta.
  Variable estimate : Wt -> Theta -> Results.
  Variable updated : WType -> Results -> Wt.
  Let solve one_step := solve_steps P one_step optimize estimate updated.
  Let start step W theta := if (0 < P)%N then optimize step W theta else theta.

  Lemma solve_one_step type W theta :
    solve true type false W theta = Some (StepResults 1 W (start 1 W theta) (estimate W (start 1 W theta))).
  Proof. by rewrite /solve /solve_steps /= /start andbT. Qed.
  Lemma solve_two_steps type W theta : let theta1 := start 1 W theta in let W1 := updated type (estimate W theta1) in
    solve false type false W theta = Some (StepResults 2 W1 (start 2 W1 theta1) (estimate W1 (start 2 W1 theta1))).
  Proof. by rewrite /solve /solve_steps /= /start !andbT. Qed.
  Lemma solve_update one_step type W theta :
    solve one_step type true W theta = solve one_step type false (updated type (estimate W theta)) theta.
  Proof. by rewrite /solve /solve_steps /= andbF; case: one_step; rewrite /last_step. Qed.
  Lemma solve_step_number one_step type update W theta r : solve one_step type update W theta = Some r ->
    step_number r = (if one_step then 1 else 2)%N.
  Proof. by case: update; rewrite ?solve_update; case: one_step; rewrite ?solve_one_step ?solve_two_steps => -[<-]. Qed.
End StepsLemmas.

Lemma update_default micro specified : validate_initial_update None micro specified = Some (micro && ~~ specified).
Proof. by []. Qed.
Lemma update_required given specified : forall b, validate_initial_update given true specified = Some b -> specified = false -> b = true.
Proof. by move=> b; case: given => [[]|] /=; case: specified => //= -[<-]. Qed.
Lemma update_given micro specified b : validate_initial_update (Some b) micro specified <> None ->
  validate_initial_update (Some b) micro specified = Some b.
Proof. by rewrite /=; case: ifP. Qed.

Lemma invmx_of (F : realFieldType) n (A B : 'M[F]_n) : A *m B = 1%:M -> invmx B = A.
Proof. move=> E. have U := (mulmx1_unit E).2. by rewrite -[LHS]mul1mx -E mulmxK. Qed.

Lemma initial_separate (F : realFieldType) N K1 MD K3 MS MC K3' MS' MC' (X1 : 'M[F]_(N, K1)) (ZD : 'M[F]_(N, MD)) (delta : 'cV[F]_N)
    (X3 : 'M[F]_(N, K3)) (ZS : 'M[F]_(N, MS)) (ZC : 'M[F]_(N, MC)) W C costs
    (X3' : 'M[F]_(N, K3')) (ZS' : 'M[F]_(N, MS')) (ZC' : 'M[F]_(N, MC')) W' C' costs' :
  (0 < N)%N -> W *m two_stage_matrix ZD ZS ZC = 1%:M -> W' *m two_stage_matrix ZD ZS' ZC' = 1%:M ->
  inverse_of C (iv_information (linear_X X1 X3) (linear_Z ZD ZS) (linear_W W)) ->
  inverse_of C' (iv_information (linear_X X1 X3') (linear_Z ZD ZS') (linear_W W')) ->
  usubmx (iv_parameters (linear_X X1 X3) (linear_Z ZD ZS) (linear_W W) C (col_mx delta costs)) =
  usubmx (iv_parameters (linear_X X1 X3') (linear_Z ZD ZS') (linear_W W') C' (col_mx delta costs')).
Proof.
  move=> N0 I I' J J'. set b := iv_parameters _ _ _ C _. set b' := iv_parameters _ _ _ C' _.
  have [/(_ _)/[!vsubmxK]H _] := initial_estimates delta costs (usubmx b) (dsubmx b) N0 I J.
  have [/(_ _)/[!vsubmxK]H' _] := initial_estimates delta costs' (usubmx b') (dsubmx b') N0 I' J'.
  have [D _] := H erefl. have [_ S'] := H' erefl.
  have [_ Q] := initial_estimates delta costs' (usubmx b) (dsubmx b') N0 I' J'.
  move: (Q (conj D S')). rewrite -/b' => E. by rewrite E col_mxKu.
Qed.
