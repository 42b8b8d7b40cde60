(** Property C107: absorption of fixed effects. *)
Set Warnings "-notation-overridden,-ambiguous-paths".
From mathcomp Require Import all_ssreflect all_algebra.
From Verif Require Import StatsModel StatsSpec StatsProofs SolveSpec SolveWitness AbsorbModel AbsorbSpec AbsorbProofs AbsorbWitness.
Set Implicit Arguments.
Unset Strict Implicit.
Unset Printing Implicit Defensive.
Import Order.TTheory GRing.Theory Num.Theory.
Local Open Scope ring_scope.

(** With the default weighting matrix, estimates and structural errors are those of two-stage least squares with an indicator for each
    fixed effect among characteristics and instruments, and nothing else is. *)
Theorem C107_two_stage (F : realFieldType) N E K L M (A : 'M[F]_N) (D : 'M[F]_(N, E)) (X : 'M[F]_(N, K)) (theta_X : 'M[F]_(N, L))
    (theta_beta : 'cV[F]_L) (delta : 'cV[F]_N) (Z : 'M[F]_(N, M)) W C :
  residualizes A D -> inverse_of C (absorbed_information A X true Z W) -> (0 < N)%N ->
  inverse_of W (N%:R^-1 *: ((absorbed_Z A true Z)^T *m absorbed_Z A true Z)) ->
  forall b r,
  (exists2 f, two_stage (row_mx X D) (row_mx Z D) (delta - theta_X *m theta_beta) (col_mx b f) &
              r = delta - theta_X *m theta_beta - row_mx X D *m col_mx b f) <->
  b = absorbed_beta A X theta_X theta_beta delta true Z W C /\ r = absorbed_xi A X theta_X theta_beta delta true Z W C.
Proof. exact: absorbed_two_stage. Qed.
Print Assumptions C107_two_stage.

(** With any other weighting matrix, they are those of GMM with indicators among characteristics, and moments for them, whatever positive
    definite weights these moments get. *)
Theorem C107_gmm (F : realFieldType) N E K L M (A : 'M[F]_N) (D : 'M[F]_(N, E)) (X : 'M[F]_(N, K)) (theta_X : 'M[F]_(N, L))
    (theta_beta : 'cV[F]_L) (delta : 'cV[F]_N) (Z : 'M[F]_(N, M)) W C :
  residualizes A D -> inverse_of C (absorbed_information A X true Z W) ->
  forall V, (forall x, x != 0 -> 0 < quadratic V x) -> forall b r,
  (exists2 f, first_order (row_mx X D) (row_mx (absorbed_Z A true Z) D) (block_mx W 0 0 V) (delta - theta_X *m theta_beta) (col_mx b f) &
              r = delta - theta_X *m theta_beta - row_mx X D *m col_mx b f) <->
  b = absorbed_beta A X theta_X theta_beta delta true Z W C /\ r = absorbed_xi A X theta_X theta_beta delta true Z W C.
Proof. exact: absorbed_gmm. Qed.
Print Assumptions C107_gmm.

(** Estimated fixed effects are a combination of indicators, structural errors are orthogonal to indicators, and with contributions of
    characteristics, they add up to mean utilities. *)
Theorem C107_fixed_effects (F : realFieldType) N E K L M (A : 'M[F]_N) (D : 'M[F]_(N, E)) (X : 'M[F]_(N, K)) (theta_X : 'M[F]_(N, L))
    (theta_beta : 'cV[F]_L) (delta : 'cV[F]_N) (Z : 'M[F]_(N, M)) W C :
  residualizes A D ->
  let beta := absorbed_beta A X theta_X theta_beta delta true Z W C in let xi := absorbed_xi A X theta_X theta_beta delta true Z W C in
  let fe := xi_fe A X theta_X theta_beta delta true Z W C in
  [/\ (exists f, fe = D *m f), D^T *m xi = 0 & delta = X *m beta + theta_X *m theta_beta + fe + xi].
Proof. move=> HA. split; [exact: (xi_fe_span _ _ _ _ _ _ _ HA)|exact: (xi_orthogonal _ _ _ _ _ _ _ HA)|exact: xi_fe_sum]. Qed.
Print Assumptions C107_fixed_effects.

(** So with one set of fixed effects, products with the same one have the same estimate, and structural errors sum to zero over them; with
    two sets, estimates are sums of one effect for each. *)
Theorem C107_groups (F : realFieldType) N G K L M (group : 'I_N -> 'I_G) (A : 'M[F]_N) (X : 'M[F]_(N, K)) (theta_X : 'M[F]_(N, L))
    (theta_beta : 'cV[F]_L) (delta : 'cV[F]_N) (Z : 'M[F]_(N, M)) W C :
  residualizes A (indicators F group) ->
  (exists f : 'I_G -> F, forall n, xi_fe A X theta_X theta_beta delta true Z W C n 0 = f (group n)) /\
  (forall g, \sum_(n | group n == g) absorbed_xi A X theta_X theta_beta delta true Z W C n 0 = 0).
Proof.
  move=> HA. split.
  - have [f E] := xi_fe_span X theta_X theta_beta delta Z W C HA. exists (fun g => f g 0) => n. by rewrite E indicators_column.
  - move=> g. have /matrixP/(_ g 0) := xi_orthogonal X theta_X theta_beta delta Z W C HA. rewrite [RHS]mxE => H. rewrite -[RHS]H mxE.
    rewrite [LHS]big_mkcond /=. apply: eq_bigr => n _. rewrite !mxE. by case: eqP => _; rewrite ?mul1r ?mul0r.
Qed.
Print Assumptions C107_groups.
Theorem C107_two_way (F : realFieldType) N G H K L M (g : 'I_N -> 'I_G) (h : 'I_N -> 'I_H) (A : 'M[F]_N) (X : 'M[F]_(N, K))
    (theta_X : 'M[F]_(N, L)) (theta_beta : 'cV[F]_L) (delta : 'cV[F]_N) (Z : 'M[F]_(N, M)) W C :
  residualizes A (row_mx (indicators F g) (indicators F h)) ->
  exists (f : 'I_G -> F) (e : 'I_H -> F), forall n, xi_fe A X theta_X theta_beta delta true Z W C n 0 = f (g n) + e (h n).
Proof.
  move=> HA. have [f E] := xi_fe_span X theta_X theta_beta delta Z W C HA.
  exists (fun i => usubmx f i 0), (fun i => dsubmx f i 0) => n.
  by rewrite E -{1}[f]vsubmxK mul_row_col mxE !indicators_column.
Qed.
Print Assumptions C107_two_way.

(** There is exactly one way to absorb a set of fixed effects, however many there are and whether or not they are collinear, and with one
    way of grouping products it is to subtract averages of groups. *)
Theorem C107_residuals (F : realFieldType) N E (D : 'M[F]_(N, E)) :
  (exists A, residualizes A D) /\ (forall A A', residualizes A D -> residualizes A' D -> A = A').
Proof. split; [exact: residualizes_exists|move=> A A'; exact: residualizes_unique]. Qed.
Print Assumptions C107_residuals.
Theorem C107_one_way (F : realFieldType) N G (group : 'I_N -> 'I_G) (A : 'M[F]_N) : residualizes A (indicators F group) <->
  forall (y : 'cV[F]_N) n, (A *m y) n 0 = y n 0 - (\sum_(m | group m == group n) y m 0) / #|[pred m | group m == group n]|%:R.
Proof.
  split=> [H y n|H].
  - by rewrite (residualizes_unique H (demeaning_residualizes group)) demeaned_column.
  - have -> : A = demeaning F group; last exact: demeaning_residualizes.
    apply: mx_ext => y. apply/matrixP => n j. by rewrite ord1 H demeaned_column.
Qed.
Print Assumptions C107_one_way.

(** With instruments into which fixed effects are absorbed by the problem or by the user, the gradient that is computed without absorbing
    derivatives of mean utilities is the gradient of the objective... *)
Theorem C107_gradient (F : realFieldType) N E K L M (A : 'M[F]_N) (D : 'M[F]_(N, E)) (X : 'M[F]_(N, K)) (theta_X : 'M[F]_(N, L))
    (theta_beta : 'cV[F]_L) (delta : 'cV[F]_N) add_exogenous (Z : 'M[F]_(N, M)) W C :
  residualizes A D -> symmetric W -> inverse_of C (absorbed_information A X add_exogenous Z W) ->
  (add_exogenous = true \/ D^T *m Z = 0) ->
  forall h, slope (fun d => absorbed_objective A X theta_X theta_beta d add_exogenous Z W C) delta h
                  (absorbed_gradient A X theta_X theta_beta delta add_exogenous Z W C h 0 0).
Proof.
  move=> HA WS HC O h. apply: gradient_slope => //. rewrite /absorbed_Z /absorb. move: O; case: (add_exogenous) => [_|[//|O]].
  - by rewrite trmx_mul (res_sym HA) -mulmxA (res_idem HA).
  - by rewrite -{1}(res_sym HA) -trmx_mul (res_fixed HA O).
Qed.
Print Assumptions C107_gradient.
Theorem C107_slope_unique (F : realFieldType) N (f : 'cV[F]_N -> F) x h s s' : slope f x h s -> slope f x h s' -> s = s'.
Proof. exact: slope_unique. Qed.
Print Assumptions C107_slope_unique.
(** ... but it is not in general if the user specifies all instruments and does not absorb fixed effects into them, which the documentation
    asks for. *)
Theorem C107_unabsorbed_instruments :
  exists (A : 'M[rat]_3) (D : 'M[rat]_(3, 1)) (X : 'M[rat]_(3, 1)) (theta_X : 'M[rat]_(3, 0)) theta_beta delta (Z : 'M[rat]_(3, 2)) W C h,
  [/\ residualizes A D, symmetric W, inverse_of C (absorbed_information A X false Z W) &
      ~ slope (fun d => absorbed_objective A X theta_X theta_beta d false Z W C) delta h
              (absorbed_gradient A X theta_X theta_beta delta false Z W C h 0 0)].
Proof.
  exists common_deviations, common, opposites, 0, 0, (column3 3%:R 3%:R (- 6%:R)), instruments, 1%:M, (2%:R^-1)%:M, (column3 1 0 0).
  split; [exact: common_residualizes|exact: trmx1|exact: common_information|]. rewrite common_gradient. exact: common_not_slope.
Qed.
Print Assumptions C107_unabsorbed_instruments.

(** Two groups of two products, one characteristic that is its own instrument, and another one with a parameter in theta. *)
Example C107_applies :
  [/\ residualizes pair_deviations pairs,
      inverse_of ((2%:R / 5%:R)%:M : 'M[rat]_1) (4%:R^-1 *: ((absorbed_Z pair_deviations true pair_X)^T *m absorbed_Z pair_deviations true pair_X)),
      inverse_of (40%:R^-1)%:M (absorbed_information pair_deviations pair_X true pair_X (2%:R / 5%:R)%:M),
      (forall x : 'cV[rat]_2, x != 0 -> 0 < quadratic 1%:M x) &
      absorbed_beta pair_deviations pair_X pair_theta_X 2%:R%:M pair_delta true pair_X (2%:R / 5%:R)%:M (40%:R^-1)%:M = (6%:R / 5%:R)%:M].
Proof.
  split; [exact: pairs_residualizes|exact: pair_weights|exact: pair_information| |exact: pair_beta].
  move=> x NZ. rewrite lt0r. apply/andP; split.
  - apply: contra NZ => /eqP H. apply/eqP. apply: sumsq_zero. apply/matrixP => i j. rewrite !ord1 [RHS]mxE. by rewrite /quadratic mulmx1 in H.
  - rewrite /quadratic mulmx1 mxE. apply: sumr_ge0 => k _. rewrite mxE -expr2. exact: sqr_ge0.
Qed.
Print Assumptions C107_applies.
