(** Property theorems about consumer surplus in floating point arithmetic: C165. *)
From Coq Require Import Reals Lra Lia List Bool Arith ZArith Sorting.Permutation.
From Flocq Require Import Core.
From Verif Require Import Base FltModel RoundModel RoundSpec RoundProofs RoundAccuracy RoundWitness LogsumModel LogsumSpec LogsumProofs LogsumWitness.
Local Open Scope R_scope.

(** C165: in floating point arithmetic, whatever the order in which numbers are added up and however large or small
    utilities are, surplus before dividing by derivatives is a finite number, not negative, and not smaller than any
    rounded utility, if the outside option or some product in the choice set has the highest utility of all, which is so
    if no products were removed. *)
Theorem C165_finite :
  forall A N J U L t included v, rounds A N -> exponential A -> logarithm A -> adds_up t J -> (S J <= N)%nat ->
  (U + L <= N)%nat -> Log A (INR (S J)) <= INR L -> (forall k, (k < J)%nat -> v k <= INR U) -> best_remains J included v ->
  exists x, plain_numerator A J t included (fun k => Num (v k)) = Num x /\ 0 <= x <= INR (U + L) /\
    forall k, (k < J)%nat -> rnd A (v k) <= x.
Proof.
  intros A N J U L t included v HR HE HL Ht HJ HUL HLJ Hv HC. exact (plain_bounds A N HR HE HL J U L t included v Ht HJ HUL HLJ Hv HC).
Qed.
Print Assumptions C165_finite.

Theorem C165_all_remain : forall J (v : nat -> R), best_remains J (fun _ => true) v.
Proof.
  intros J v. assert (Hu : forall k, (k < J)%nat -> exists r, Num (v k) = Num r) by (intros k _; exists (v k); reflexivity).
  destruct (reduction_spec J (fun k => Num (v k)) Hu) as (r0 & _ & H0 & HM & [Z|(k & Hk & Ek)]).
  - left. intros k Hk. rewrite <- Z. exact (HM k (v k) Hk eq_refl).
  - right. injection Ek as Ek. exists k. rewrite Ek. split; [exact Hk|]. split; [reflexivity|]. split; [exact H0|]. intros i Hi. exact (HM i (v i) Hi eq_refl).
Qed.
Print Assumptions C165_all_remain.

(** It is then accurate: relative to the exact expected maximum utility, errors are at most 5 eps times this value plus
    4 J + 6. *)
Theorem C165_accurate :
  forall A N eps eta J U L t included v, rounds A N -> exponential A -> logarithm A -> accurate A eps eta -> log_accurate A eps ->
  adds_up t J -> (S J <= N)%nat -> (2 * U <= N)%nat -> (U + L <= N)%nat -> Log A (INR (S J)) <= INR L ->
  20 * (INR J + 1) * eps <= 1 -> (forall k, (k < J)%nat -> - INR U <= v k <= INR U) -> best_remains J included v ->
  exists x, plain_numerator A J t included (fun k => Num (v k)) = Num x /\
    Rabs (x - expected_maximum J included v) <= 5 * eps * (expected_maximum J included v + 4 * INR J + 6).
Proof.
  intros A N eps eta J U L t included v HR HE HL HA HLA Ht HJ HU2 HUL HLJ Hs Hv HC.
  exact (plain_accuracy A N HR HE HL J U L t included v Ht HJ HUL HLJ (fun k Hk => proj2 (Hv k Hk)) HC eps eta HA HLA (fun k Hk => proj1 (Hv k Hk)) HU2 Hs).
Qed.
Print Assumptions C165_accurate.

(** With nesting, surplus is finite and not negative if groups have the same nesting parameter and no products were
    removed. *)
Theorem C165_nested_finite :
  forall A N J H L B U K v group group_tree groups_tree rho several, rounds A N -> exponential A -> logarithm A ->
  nests J H group group_tree groups_tree -> 0 <= rho <= 1 -> Log A (INR J) <= INR L -> Exp A (INR L) <= INR B ->
  (S (H * B) <= N)%nat -> (J <= N)%nat -> (L <= N)%nat -> (0 < H)%nat -> Log A (INR (S (H * B))) <= INR K -> (U + K <= N)%nat ->
  (forall k, (k < J)%nat -> v k <= INR U) ->
  between (U + K) (nested_numerator A J (fun _ => true) (fun k => Num (v k)) H group_tree groups_tree (fun _ => rho) several).
Proof.
  intros A N J H L B U K v group group_tree groups_tree rho several HR HE HL HG Hrho HLJ HBL HN HJ HLN HH HK HUK Hv.
  exact (nested_bounds A N HR HE HL J H L B U K v group group_tree groups_tree rho several HG Hrho HLJ HBL HN HJ HLN HH HK HUK Hv).
Qed.
Print Assumptions C165_nested_finite.

(** If numerators are such numbers, derivatives are at least 1 / K, and weights are between zero and W, surpluses of
    agents and of the market are also finite and not negative. *)
Theorem C165_market_finite :
  forall A N agents I numerators derivatives weights n K W, rounds A N -> adds_up agents I ->
  (n * K <= N)%nat -> (n * K * W <= N)%nat -> (n * K * W * I <= N)%nat ->
  (forall i, (i < I)%nat -> between n (numerators i)) ->
  (forall i, (i < I)%nat -> exists d, derivatives i = Num d /\ 0 < d /\ 1 <= INR K * d) ->
  (forall i, (i < I)%nat -> between W (weights i)) ->
  (forall i, (i < I)%nat -> between (n * K) (agent_surplus A numerators derivatives i)) /\
  between (n * K * W * I) (market_surplus A agents numerators derivatives weights).
Proof.
  intros A N agents I numerators derivatives weights n K W HR Ha HN1 HN2 HN Hn Hd Hw. split.
  - intros i Hi. exact (agent_bounds A N HR numerators derivatives i n K HN1 (Hn i Hi) (Hd i Hi)).
  - exact (market_bounds A N HR agents I numerators derivatives weights n K W Ha HN HN1 HN2 Hn Hd Hw).
Qed.
Print Assumptions C165_market_finite.

(** It is false that this also holds when products are eliminated or not available: the utility by which others are
    scaled down may be that of such a product.  With double precision, eliminating a product with a utility of 2000 gives a
    surplus of minus infinity when that of the other product is zero, instead of the logarithm of 2. *)
Theorem C165_eliminated_refuted :
  plain_numerator binary64 2 two (fun k => negb (Nat.eqb k 0)) (pair 2000 0) = NInf /\
  expected_maximum 2 (fun k => negb (Nat.eqb k 0)) (fun k => if Nat.eqb k 0 then 2000 else 0) = ln 2.
Proof.
  split; [exact eliminated_inf|]. unfold expected_maximum. f_equal. cbn [sumn Nat.eqb negb]. rewrite exp_0. ring.
Qed.
Print Assumptions C165_eliminated_refuted.

(** It is also false that this holds with several nesting parameters: those of 127/128 and zero give a surplus of minus
    infinity for utilities of 12 and zero, instead of more than 12. *)
Theorem C165_several_parameters_refuted :
  exists rho, (forall h, 0 <= rho h < 1) /\
    nested_numerator binary64 2 (fun _ => true) (nested_utility binary64 (fun _ _ => Num 0) (fun j => j) rho (pair 12 0) 0) 2 Leaf two rho true = NInf /\
    12 < nested_maximum 2 2 (fun j => j) rho (fun k => if Nat.eqb k 0 then 12 else 0).
Proof.
  exists rhos. split; [|split].
  - intro h. unfold rhos. destruct (Nat.eqb h 0); lra.
  - rewrite scaled_pair. exact several_inf.
  - rewrite exact_several. rewrite <- (ln_exp 12) at 1. apply ln_increasing; [apply exp_pos|lra].
Qed.
Print Assumptions C165_several_parameters_refuted.

(** Double precision arithmetic satisfies what is assumed, with utilities of 2000 and -2000, the second of which is
    eliminated, and with a nesting parameter of one half. *)
Example C165_applies :
  (exists x, plain_numerator binary64 2 two (fun k => Nat.eqb k 0) (fun k => Num (if Nat.eqb k 0 then 2000 else -2000)) = Num x /\ 2000 <= x /\
    Rabs (x - expected_maximum 2 (fun k => Nat.eqb k 0) (fun k => if Nat.eqb k 0 then 2000 else -2000)) <= / 100000000000) /\
  between 2003 (nested_numerator binary64 2 (fun _ => true) (fun k => Num (if Nat.eqb k 0 then 2000 else -2000)) 2 Leaf two (fun _ => / 2) true) /\
  between 6 (market_surplus binary64 two (fun _ => Num 1) (fun _ => Num (/ 3)) (fun _ => Num (/ 2))).
Proof.
  assert (HR : rounds binary64 5000) by (apply rounds64; lia).
  assert (E2 : exp 1 > 2) by (assert (Q := exp_ineq1 1 ltac:(lra)); lra).
  assert (E4 : 4 < exp 1 * exp 1) by (replace 4 with (2 * 2) by ring; apply Rmult_gt_0_lt_compat; lra).
  assert (L3 : ln 3 <= 2). { rewrite <- (ln_exp 2). left. apply ln_increasing; [lra|]. replace 2 with (1 + 1) by ring. rewrite exp_plus. lra. }
  assert (I2000 : INR 2000 = 2000) by (rewrite INR_IZR_INZ; reflexivity).
  set (v := fun k => if Nat.eqb k 0 then 2000 else -2000).
  assert (BR : best_remains 2 (fun k => Nat.eqb k 0) v). { right. exists 0%nat. unfold v. cbn [Nat.eqb]. repeat split; [lia|lra|]. intros i _. destruct (Nat.eqb i 0); lra. }
  assert (Bv : forall k, - INR 2000 <= v k <= INR 2000) by (intro k; rewrite I2000; unfold v; destruct (Nat.eqb k 0); lra).
  assert (E0 : 0 < bpow radix2 (-53)) by apply bpow_gt_0.
  assert (E53 : bpow radix2 (-53) <= / 9007199254740992) by (right; reflexivity).
  split; [|split].
  - destruct (C165_finite binary64 5000 2 2000 2 two (fun k => Nat.eqb k 0) v HR exponential64 logarithm64 two_adds) as (x & Ex & Bx & Mx); [lia|lia| | |exact BR|].
    { cbn [INR Log binary64]. replace (1 + 1 + 1) with 3 by ring. lra. }
    { intros k _. apply Bv. }
    destruct (C165_accurate binary64 5000 _ _ 2 2000 2 two (fun k => Nat.eqb k 0) v HR exponential64 logarithm64 accurate64 (log_accurate64 _ (Rlt_le _ _ E0)) two_adds) as (y & Ey & Dy).
    + lia.
    + lia.
    + lia.
    + cbn [INR Log binary64]. replace (1 + 1 + 1) with 3 by ring. lra.
    + cbn [INR]. lra.
    + intros k _. apply Bv.
    + exact BR.
    + rewrite Ex in Ey. injection Ey as <-. exists x. split; [exact Ex|]. split.
      * specialize (Mx 0%nat ltac:(lia)). unfold v in Mx at 1. cbn [Nat.eqb] in Mx. rewrite (exact64_Z 2000) in Mx by lia. exact Mx.
      * eapply Rle_trans; [exact Dy|]. assert (T : expected_maximum 2 (fun k => Nat.eqb k 0) v <= 2001).
        { unfold expected_maximum, v. cbn [sumn Nat.eqb]. rewrite <- (ln_exp 2001). left. assert (P := exp_pos 2000). apply ln_increasing; [lra|].
          replace 2001 with (2000 + 1) by ring. rewrite exp_plus. assert (1 < exp 2000) by (rewrite <- exp_0; apply exp_increasing; lra). assert (exp 2000 * 2 < exp 2000 * exp 1) by (apply Rmult_lt_compat_l; lra). lra. }
        cbn [INR]. assert (5 * bpow radix2 (-53) * (expected_maximum 2 (fun k => Nat.eqb k 0) v + 4 * (1 + 1) + 6) <= 5 * bpow radix2 (-53) * 2100) by (apply Rmult_le_compat_l; lra). lra.
  - apply (C165_nested_finite binary64 5000 2 2 1 3 2000 3 v (fun j => j)); [exact HR|exact exponential64|exact logarithm64| |lra| | |lia|lia|lia|lia| |lia|intros k _; apply Bv].
    + split; [intros j Hj; exact Hj| |exact two_adds]. intros h Hh. destruct h as [|[|h]]; [apply Permutation_refl|apply Permutation_refl|lia].
    + cbn [INR Log binary64]. replace (1 + 1) with 2 by ring. rewrite <- (ln_exp 1). left. apply ln_increasing; lra.
    + cbn [INR Exp binary64]. assert (Q := exp_le_3). lra.
    + change (S (2 * 3)) with 7%nat. change (Log binary64 (INR 7)) with (ln (INR 7)). replace (INR 7) with 7 by (cbn; ring). replace (INR 3) with 3 by (cbn; ring). rewrite <- (ln_exp 3). left. apply ln_increasing; [lra|]. replace 3 with (1 + 1 + 1) by ring. rewrite !exp_plus. assert (4 * 2 < exp 1 * exp 1 * exp 1) by (apply Rmult_gt_0_lt_compat; lra). lra.
  - apply (C165_market_finite binary64 5000 two 2 (fun _ => Num 1) (fun _ => Num (/ 3)) (fun _ => Num (/ 2)) 1 3 1 HR two_adds); [lia|lia|lia| | |].
    + intros i _. exists 1. split; [reflexivity|cbn; lra].
    + intros i _. exists (/ 3). split; [reflexivity|cbn; lra].
    + intros i _. exists (/ 2). split; [reflexivity|cbn; lra].
Qed.
