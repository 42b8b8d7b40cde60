(** Property theorems about accuracy and speed of the contraction: C126 and C127. *)
From Coq Require Import Reals Lra Lia List Bool Arith ZArith.
From Flocq Require Import Core.
From Verif Require Import Base FltModel IterModel IterSpec ConvModel RoundModel RoundSpec RoundWitness DemandModel DemandSpec DemandProofs RateSpec RateProofs RateRound RateIter RateConverge RateWitness.
Import ListNotations.
Local Open Scope R_scope.

(** C126: if the simple routine or SQUAREM reports convergence, exact shares at the mean utilities that it returns differ
    from observed ones by at most [share_tolerance], which is about five times the tolerance of the routine plus a few
    thousand times the precision of the arithmetic. *)
Theorem C126_shares_reproduced :
  forall A N eps eta J I X M Q C t agents m w shares lower group group_tree groups_tree group_rho several atol rtol budget initial o,
  rounds A N -> exponential A -> logarithm A -> accurate A eps eta -> accurate_log A eps ->
  market_data A N J I M 1 Q C agents (fun i k => Num (m i k)) (fun i => Num (w i)) (fun j => Num (shares j)) (Some (Num lower)) None ->
  (forall i, (i < I)%nat -> 0 <= w i) -> (forall j, (j < J)%nat -> shares j <= 1) ->
  adds_up t J -> (S J <= N)%nat -> (2 * (X + 1 + M) <= N)%nat -> (X + 1 + Q + C <= N)%nat -> (1 <= budget)%nat -> 0 <= rtol ->
  let accuracy := share_tolerance J I X M Q C (sumn I w) lower eps (atol + rtol * INR X) in
  accuracy <= 1 ->
  routine (rounded_contraction A J t agents true (fun i k => Num (m i k)) (fun i => Num (w i)) (fun j => Num (shares j)) (Some (Num lower)) None
             group group_tree groups_tree group_rho several false) (mk_tol (Num atol) (Num rtol) infinity_norm) budget initial o ->
  o_converged o = true -> Forall (bounded X) (o_x o) ->
  exists x, o_x o = flat J x /\ forall j, (j < J)%nat -> Rabs (share_of J I w m x j - shares j) <= accuracy.
Proof.
  intros A N eps eta J I X M Q C t agents m w shares lower group group_tree groups_tree group_rho several atol rtol budget initial o
    HR HE HL HA HG HD Hw HS Ht HJ HM HN HB Hr accuracy Hone Ho HC HX.
  exact (routine_shares A N eps eta HR HE HL HA HG J I M Q C t agents m w shares lower HD Hw Ht HJ group group_tree groups_tree group_rho several
    X atol rtol budget initial o HM HN HB Hr HS Hone Ho HC HX).
Qed.
Print Assumptions C126_shares_reproduced.

(** And the mean utilities are close to the exact ones, d, in proportion to this accuracy: the factor is twice the inverse
    of how many agents waver between a product and the outside option, at least. *)
Theorem C126_mean_utilities_accurate :
  forall A N eps eta J I X M Q C t agents m w shares lower group group_tree groups_tree group_rho several atol rtol budget initial o d h,
  rounds A N -> exponential A -> logarithm A -> accurate A eps eta -> accurate_log A eps ->
  market_data A N J I M 1 Q C agents (fun i k => Num (m i k)) (fun i => Num (w i)) (fun j => Num (shares j)) (Some (Num lower)) None ->
  (forall i, (i < I)%nat -> 0 <= w i) -> (forall j, (j < J)%nat -> shares j <= 1) ->
  adds_up t J -> (S J <= N)%nat -> (2 * (X + 1 + M) <= N)%nat -> (X + 1 + Q + C <= N)%nat -> (1 <= budget)%nat -> 0 <= rtol ->
  (forall j, (j < J)%nat -> share_of J I w m d j = shares j) -> 0 < h -> (forall j, (j < J)%nat -> h <= wavering J I w m d j) ->
  let accuracy := share_tolerance J I X M Q C (sumn I w) lower eps (atol + rtol * INR X) in
  2 * accuracy <= h ->
  routine (rounded_contraction A J t agents true (fun i k => Num (m i k)) (fun i => Num (w i)) (fun j => Num (shares j)) (Some (Num lower)) None
             group group_tree groups_tree group_rho several false) (mk_tol (Num atol) (Num rtol) infinity_norm) budget initial o ->
  o_converged o = true -> Forall (bounded X) (o_x o) ->
  exists x, o_x o = flat J x /\ apart J x d (2 * accuracy / h).
Proof.
  intros A N eps eta J I X M Q C t agents m w shares lower group group_tree groups_tree group_rho several atol rtol budget initial o d h
    HR HE HL HA HG HD Hw HS Ht HJ HM HN HB Hr Hd Hh Hk accuracy He Ho HC HX.
  exact (routine_mean_utilities A N eps eta HR HE HL HA HG J I M Q C t agents m w shares lower HD Hw Ht HJ group group_tree groups_tree group_rho several
    X atol rtol budget initial o d h HM HN HB Hr HS Hd Hh Hk He Ho HC HX).
Qed.
Print Assumptions C126_mean_utilities_accurate.

(** C127: without nesting, exact evaluations of the contraction approach the solution geometrically: distances shrink by
    [rate g R0], where R0 is how far the start is and g how likely those who choose a product would be to choose the outside
    option the next time.  Bounds on shares may not be binding on the way. *)
Theorem C127_geometric_rate :
  forall m a safe limits shares delta g R0 start,
  valid_market m -> mH m = O -> eps_scale m = 1 -> (forall i, (i < aI a)%nat -> 0 <= aw a i) -> 0 <= g -> 0 <= R0 ->
  (forall j, (j < mJ m)%nat -> 0 < shares j /\ share_of (mJ m) (aI a) (aw a) (amu a) delta j = shares j) ->
  (forall j, (j < mJ m)%nat -> g * shares j <= wavering (mJ m) (aI a) (aw a) (amu a) delta j) ->
  (forall j, (j < mJ m)%nat -> roomy limits R0 (shares j)) ->
  apart (mJ m) start delta R0 ->
  forall n, apart (mJ m) (Nat.iter n (contraction m a safe limits shares) start) delta (rate g R0 ^ n * R0).
Proof.
  intros m a safe limits shares delta g R0 start V HH He Hw Hg HR HS HW HB H0.
  exact (exact_rate m a safe limits shares delta g R0 V HH He Hw Hg HS HW HB start HR H0).
Qed.
Print Assumptions C127_geometric_rate.

(** The rate is below one: there always is a positive g. *)
Theorem C127_rate_below_one :
  forall J I w m delta, (forall i, (i < I)%nat -> 0 <= w i) -> (exists i, (i < I)%nat /\ 0 < w i) ->
  exists g, 0 < g <= 1 /\ (forall j, (j < J)%nat -> g * share_of J I w m delta j <= wavering J I w m delta j) /\
    forall R0, 0 <= R0 -> / 2 <= rate g R0 < 1.
Proof.
  intros J I w m delta Hw HI. destruct (ratio_exists J I w m delta Hw HI) as (g & Hg & H). exists g. split; [exact Hg|]. split; [exact H|].
  intros R0 HR. exact (rate_bounds g R0 Hg HR).
Qed.
Print Assumptions C127_rate_below_one.

(** In floating point arithmetic, the simple routine reports convergence after at most n + 1 evaluations if its tolerance is
    larger than what is left of the distance after n of them, plus twice what rounding errors accumulate to. *)
Theorem C127_rounded_convergence :
  forall A N eps eta J I X M Q C t agents m w shares lower group group_tree groups_tree group_rho several d g r floor R0 atol budget n start,
  rounds A N -> exponential A -> logarithm A -> accurate A eps eta -> accurate_log A eps ->
  market_data A N J I M 1 Q C agents (fun i k => Num (m i k)) (fun i => Num (w i)) (fun j => Num (shares j)) (Some (Num lower)) None ->
  (forall i, (i < I)%nat -> 0 <= w i) -> adds_up t J -> (S J <= N)%nat -> (2 * (X + M) <= N)%nat -> (X + Q + C <= N)%nat ->
  (forall k, (k < J)%nat -> - INR X <= d k - r /\ d k + r <= INR X) ->
  (forall j, (j < J)%nat -> shares j <= 1 /\ share_of J I w m d j = shares j) ->
  0 < g -> (forall j, (j < J)%nat -> g * shares j <= wavering J I w m d j) ->
  (0 < floor /\ forall j, (j < J)%nat -> floor <= exp (- (2 * r)) * shares j) ->
  2 * lower <= floor -> 2 * share_noise J I X M (sumn I w) eps <= floor -> 0 < atol ->
  let noise := step_noise J I X M Q C (sumn I w) eps floor in
  let limit := noise / (1 - rate g r) in
  0 <= R0 /\ R0 + limit <= r -> apart J start d R0 -> 2 * rate g r ^ n * R0 + 2 * limit < atol -> (n + 1 < budget)%nat ->
  exists o x, simple_iterator (rounded_contraction A J t agents true (fun i k => Num (m i k)) (fun i => Num (w i)) (fun j => Num (shares j)) (Some (Num lower)) None
             group group_tree groups_tree group_rho several false) (mk_tol (Num atol) (Num 0) infinity_norm) budget (flat J start) = Some o /\
    o_converged o = true /\ (s_evaluations (o_st o) <= n + 1)%nat /\
    o_x o = flat J x /\ apart J x d ((rate g r * atol + noise) / (1 - rate g r)).
Proof.
  intros A N eps eta J I X M Q C t agents m w shares lower group group_tree groups_tree group_rho several d g r floor R0 atol budget n start
    HR HE HL HA HG HD Hw Ht HJ HM HN Hd HS Hg Hwav Hf Hb Hn Ha noise limit Hlim H0 Hk HB.
  exact (rounded_converges A N eps eta HR HE HL HA HG J I M Q C t agents m w shares lower HD Hw Ht HJ X d g r floor HM HN Hd HS Hg Hwav Hf Hb Hn
    R0 atol budget Ha Hlim group group_tree groups_tree group_rho several n start H0 Hk HB).
Qed.
Print Assumptions C127_rounded_convergence.

(** Double precision, the default lower bound on shares, a share of one half and a start of one: with a tolerance of 10^-8,
    convergence is reported after at most 701 evaluations, and the mean utility is within 10^-6 of zero. *)
Example C127_applies :
  exists o x, simple_iterator (rounded_contraction binary64 1 (Leaf 0) (Leaf 0) true (fun _ _ => Num 0) (fun _ => Num 1) (fun _ => Num (/ 2))
      (Some (Num (/ 10 ^ 300))) None (fun j => j) Leaf (Leaf 0) (fun _ => 0) false false) (mk_tol (Num (/ 100000000)) (Num 0) infinity_norm) 1000 [Num 1] = Some o /\
    o_converged o = true /\ (s_evaluations (o_st o) <= 701)%nat /\ o_x o = flat 1 x /\ apart 1 x (fun _ => 0) (/ 1000000).
Proof.
  set (cap := Z.to_nat 2000000). assert (HN : (Z.of_nat cap < 2 ^ 53)%Z) by (unfold cap; lia). assert (E := eps64). assert (K := rate_half). assert (NS := noise_small).
  assert (LB : 0 < / 10 ^ 300 <= / 1000).
  { assert (P : 0 < 10 ^ 300) by (apply pow_lt; lra). split; [apply Rinv_0_lt_compat, P|]. apply Rinv_le_contravar; [lra|].
    change 300%nat with (3 + 297)%nat. rewrite pow_add. assert (1 <= 10 ^ 297) by (apply pow_R1_Rle; lra). assert (10 ^ 3 * 1 <= 10 ^ 3 * 10 ^ 297) by (apply Rmult_le_compat_l; lra). lra. }
  assert (LM : half_noise / (1 - rate (/ 2) 2) <= / 1000000000).
  { apply Rmult_le_reg_r with (1 - rate (/ 2) 2); [lra|]. unfold Rdiv. rewrite Rmult_assoc, Rinv_l by lra. lra. }
  destruct (C127_rounded_convergence binary64 cap (bpow radix2 (-53)) (bpow radix2 (-1075)) 1 1 3 0 1 1200 (Leaf 0) (Leaf 0) (fun _ _ => 0) (fun _ => 1) (fun _ => / 2) (/ 10 ^ 300)
    (fun j => j) Leaf (Leaf 0) (fun _ => 0) false (fun _ => 0) (/ 2) 2 (/ 200) 1 (/ 100000000) 1000 700 (fun _ => 1)) as (o & x & E1 & E2 & E3 & E4 & E5).
  - apply rounds64, HN.
  - exact exponential64.
  - exact logarithm64.
  - exact accurate64.
  - exact accurate_log64.
  - apply default_market. unfold cap. lia.
  - intros i _. lra.
  - exact one_adds.
  - unfold cap. lia.
  - unfold cap. lia.
  - unfold cap. lia.
  - intros k _. cbn. lra.
  - intros j Hj. assert (j = O) by lia. subst. split; [lra|exact half_share].
  - lra.
  - intros j Hj. assert (j = O) by lia. subst. rewrite quarter_wavers. lra.
  - split; [lra|]. intros j _. replace (- (2 * 2)) with (- (2) + - (2)) by lra. rewrite exp_plus. assert (X2 := exp_two).
    assert (/ 9 * / 9 <= exp (- (2)) * exp (- (2))) by (apply Rmult_le_compat; lra). lra.
  - lra.
  - unfold share_noise. cbn [sumn Nat.add INR]. lra.
  - lra.
  - cbv zeta. fold half_noise. lra.
  - intros k _. rewrite Rminus_0_r, Rabs_R1. lra.
  - cbv zeta. fold half_noise. assert (S7 := many_steps). lra.
  - lia.
  - exists o, x. fold half_noise in E5. split; [exact E1|]. split; [exact E2|]. split; [exact E3|]. split; [exact E4|].
    intros k Hk. eapply Rle_trans; [exact (E5 k Hk)|]. apply Rmult_le_reg_r with (1 - rate (/ 2) 2); [lra|]. unfold Rdiv. rewrite Rmult_assoc, Rinv_l by lra. lra.
Qed.

(** The hypotheses of the rate without rounding: the same market. *)
Example C127_applies_exact :
  forall n, apart 1 (Nat.iter n (contraction (mk_market 1 0 (fun _ => O) false (fun _ => 0) 1) (mk_agents 1 (fun _ => 1) (fun _ _ => 0)) true (Some (/ 10 ^ 300), None) (fun _ => / 2)) (fun _ => 2))
    (fun _ => 0) (rate (/ 2) 2 ^ n * 2) /\ rate (/ 2) 2 < 1.
Proof.
  intro n. split; [|assert (K := rate_half); lra].
  apply (C127_geometric_rate (mk_market 1 0 (fun _ => O) false (fun _ => 0) 1) (mk_agents 1 (fun _ => 1) (fun _ _ => 0)) true (Some (/ 10 ^ 300), None) (fun _ => / 2) (fun _ => 0) (/ 2) 2 (fun _ => 2)).
  - split; cbn; try lia; try lra; try discriminate; try reflexivity; intros; try lia; try lra; try contradiction.
  - reflexivity.
  - reflexivity.
  - intros i _. cbn. lra.
  - lra.
  - lra.
  - intros j Hj. cbn in Hj. assert (j = O) by lia. subst. split; [lra|exact half_share].
  - intros j Hj. cbn in Hj. assert (j = O) by lia. subst. cbn [mJ aI aw amu]. rewrite quarter_wavers. lra.
  - intros j _. split; [|exact Logic.I]. cbn [fst]. replace (- (2 * 2)) with (- (2) + - (2)) by lra. rewrite exp_plus. assert (X2 := exp_two).
    assert (/ 9 * / 9 <= exp (- (2)) * exp (- (2))) by (apply Rmult_le_compat; lra).
    assert (P : 0 < 10 ^ 300) by (apply pow_lt; lra). apply Rle_trans with (/ 1000); [|lra]. apply Rinv_le_contravar; [lra|].
    change 300%nat with (3 + 297)%nat. rewrite pow_add. assert (1 <= 10 ^ 297) by (apply pow_R1_Rle; lra). assert (10 ^ 3 * 1 <= 10 ^ 3 * 10 ^ 297) by (apply Rmult_le_compat_l; lra). lra.
  - intros k _. rewrite Rminus_0_r, Rabs_pos_eq; lra.
Qed.

(** What was reported is accurate: shares are within 10^-7 of one half. *)
Example C126_applies :
  exists o x, simple_iterator (rounded_contraction binary64 1 (Leaf 0) (Leaf 0) true (fun _ _ => Num 0) (fun _ => Num 1) (fun _ => Num (/ 2))
      (Some (Num (/ 10 ^ 300))) None (fun j => j) Leaf (Leaf 0) (fun _ => 0) false false) (mk_tol (Num (/ 100000000)) (Num 0) infinity_norm) 1000 [Num 1] = Some o /\
    o_converged o = true /\ o_x o = flat 1 x /\ Rabs (share_of 1 1 (fun _ => 1) (fun _ _ => 0) x 0 - / 2) <= / 10000000 /\ Rabs (x 0%nat) <= 8 * / 10000000.
Proof.
  set (cap := Z.to_nat 2000000). assert (HN : (Z.of_nat cap < 2 ^ 53)%Z) by (unfold cap; lia). assert (E := eps64).
  destruct C127_applies as (o & x & E1 & E2 & _ & E4 & E5).
  assert (LB : 0 < / 10 ^ 300 <= / 1000000000).
  { assert (P : 0 < 10 ^ 300) by (apply pow_lt; lra). split; [apply Rinv_0_lt_compat, P|]. apply Rinv_le_contravar; [lra|].
    change 300%nat with (9 + 291)%nat. rewrite pow_add. assert (1 <= 10 ^ 291) by (apply pow_R1_Rle; lra). assert (10 ^ 9 * 1 <= 10 ^ 9 * 10 ^ 291) by (apply Rmult_le_compat_l; lra). lra. }
  assert (T : share_tolerance 1 1 3 0 1 1200 (sumn 1 (fun _ => 1)) (/ 10 ^ 300) (bpow radix2 (-53)) (/ 100000000 + 0 * INR 3) <= / 10000000).
  { unfold share_tolerance. cbn [sumn]. rewrite (INR_IZR_INZ 1200). change (Z.of_nat 1200) with 1200%Z. cbn [INR]. lra. }
  assert (BX : Forall (bounded 3) (o_x o)).
  { rewrite E4. constructor; [|constructor]. exists (x O). split; [reflexivity|]. specialize (E5 O ltac:(lia)). apply abs_between in E5. cbn. lra. }
  assert (R1 := E1). apply (fun H => or_introl (B := exists scheme factor limits q, squarem_iterator (rounded_contraction binary64 1 (Leaf 0) (Leaf 0) true (fun _ _ => Num 0) (fun _ => Num 1) (fun _ => Num (/ 2))
      (Some (Num (/ 10 ^ 300))) None (fun j => j) Leaf (Leaf 0) (fun _ => 0) false false) (mk_tol (Num (/ 100000000)) (Num 0) infinity_norm) 1000 scheme factor limits [Num 1] = Some q /\ o = q_out q) H) in R1.
  destruct (C126_shares_reproduced binary64 cap (bpow radix2 (-53)) (bpow radix2 (-1075)) 1 1 3 0 1 1200 (Leaf 0) (Leaf 0) (fun _ _ => 0) (fun _ => 1) (fun _ => / 2) (/ 10 ^ 300)
    (fun j => j) Leaf (Leaf 0) (fun _ => 0) false (/ 100000000) 0 1000 [Num 1] o) as (x1 & F1 & F2).
  1: apply rounds64, HN. 1: exact exponential64. 1: exact logarithm64. 1: exact accurate64. 1: exact accurate_log64.
  1: apply default_market; unfold cap; lia. 1: intros; lra. 1: intros; lra. 1: exact one_adds. 1-3: unfold cap; lia. 1: lia. 1: lra. 1: lra. 1: exact R1. 1: exact E2. 1: exact BX.
  destruct (C126_mean_utilities_accurate binary64 cap (bpow radix2 (-53)) (bpow radix2 (-1075)) 1 1 3 0 1 1200 (Leaf 0) (Leaf 0) (fun _ _ => 0) (fun _ => 1) (fun _ => / 2) (/ 10 ^ 300)
    (fun j => j) Leaf (Leaf 0) (fun _ => 0) false (/ 100000000) 0 1000 [Num 1] o (fun _ => 0) (/ 4)) as (x2 & G1 & G2).
  1: apply rounds64, HN. 1: exact exponential64. 1: exact logarithm64. 1: exact accurate64. 1: exact accurate_log64.
  1: apply default_market; unfold cap; lia. 1: intros; lra. 1: intros; lra. 1: exact one_adds. 1-3: unfold cap; lia. 1: lia. 1: lra.
  1: intros j Hj; assert (j = O) by lia; subst; exact half_share. 1: lra. 1: intros j Hj; assert (j = O) by lia; subst; rewrite quarter_wavers; lra.
  1: lra. 1: exact R1. 1: exact E2. 1: exact BX.
  exists o, x1. split; [exact E1|]. split; [exact E2|]. split; [exact F1|]. split; [eapply Rle_trans; [exact (F2 O ltac:(lia))|exact T]|].
  rewrite F1 in G1. injection G1 as G1. specialize (G2 O ltac:(lia)). rewrite <- G1, Rminus_0_r in G2. eapply Rle_trans; [exact G2|]. lra.
Qed.
