(** Property theorems about floating point arithmetic: C118 - C121. *)
From Coq Require Import Reals Lra Lia List Bool Arith ZArith Sorting.Permutation.
From Flocq Require Import Core.
From Verif Require Import Base FltModel IterModel RoundModel RoundSpec RoundProofs RoundNested RoundContraction RoundAccuracy RoundWitness DemandSpec.
Import ListNotations.
Local Open Scope R_scope.

(** C118: in floating point arithmetic, whatever the order in which numbers are added up, choice probabilities that are
    computed safely are numbers between zero and one, however large or small utilities are. *)
Theorem C118_safe_probabilities :
  forall A N J t u j, rounds A N -> exponential A -> adds_up t J -> (S J <= N)%nat ->
  (forall k, (k < J)%nat -> exists r, u k = Num r) -> (j < J)%nat ->
  in_unit (probability A J t (fun _ => true) true u true j).
Proof. intros A N J t u j HR HE Ht HN Hu Hj. destruct (probability_upto A N HR HE J t u j Ht HN Hu Hj) as (r & E & B & _). exists r. auto. Qed.
Print Assumptions C118_safe_probabilities.

(** Also with nesting if groups have the same nesting parameter. *)
Theorem C118_nested_probabilities :
  forall A N J H L B u group group_tree groups_tree rho several j, rounds A N -> exponential A -> logarithm A ->
  nests J H group group_tree groups_tree -> 0 <= rho <= 1 ->
  Log A (INR J) <= INR L -> Exp A (INR L) <= INR B -> (S (H * B) <= N)%nat -> (J <= N)%nat -> (L <= N)%nat ->
  (forall k, (k < J)%nat -> exists r, u k = Num r) -> (j < J)%nat ->
  in_unit (nested_probability A J (fun _ => true) true u group group_tree groups_tree (fun _ => rho) several j).
Proof.
  intros A N J H L B u group group_tree groups_tree rho several j HR HE HL HG Hrho HLJ HBL HN HJ HLN Hu Hj.
  destruct (nested_upto A N HR HE HL J H L B u group group_tree groups_tree (fun _ => rho) several Hu HG (fun _ _ => Hrho) (fun _ _ _ _ _ => eq_refl) HLJ HBL HN HJ HLN j Hj) as (r & E & Q & _).
  exists r. auto.
Qed.
Print Assumptions C118_nested_probabilities.

(** Probabilities that are not computed safely are such numbers if utilities are not too large. *)
Theorem C118_unsafe_moderate :
  forall A N J U B t u j, rounds A N -> exponential A -> adds_up t J -> Exp A (INR U) <= INR B -> (S (B * J) <= N)%nat ->
  (forall k, (k < J)%nat -> exists r, u k = Num r /\ r <= INR U) -> (j < J)%nat ->
  in_unit (probability A J t (fun _ => true) true u false j).
Proof.
  intros A N J U B t u j HR HE Ht HB HN Hu Hj. destruct (unsafe_upto A N HR HE J U B t u j Ht HB HN Hu Hj) as (r & E & Q & _). exists r. auto.
Qed.
Print Assumptions C118_unsafe_moderate.

(** Otherwise, they need not be: with double precision, a utility of 2000 gives NaN. *)
Theorem C118_unsafe_can_fail : exists u, probability binary64 1 (Leaf 0) (fun _ => true) true (fun _ => Num u) false 0 = NaN.
Proof. exists 2000. exact unsafe_nan. Qed.
Print Assumptions C118_unsafe_can_fail.

(** Double precision arithmetic satisfies what is assumed, and utilities may be 2000 and -2000. *)
Example C118_applies :
  rounds binary64 100 /\ exponential binary64 /\ logarithm binary64 /\
  in_unit (probability binary64 2 two (fun _ => true) true (pair 2000 (-2000)) true 0) /\
  in_unit (nested_probability binary64 2 (fun _ => true) true (pair 2000 (-2000)) (fun j => j) Leaf two (fun _ => / 2) true 1) /\
  in_unit (probability binary64 2 two (fun _ => true) true (pair 1 (-2000)) false 0).
Proof.
  assert (HR : rounds binary64 100) by (apply rounds64; lia).
  assert (Hu : forall a b k, (k < 2)%nat -> exists r, pair a b k = Num r) by (intros a b k _; unfold pair; destruct (Nat.eqb k 0); eexists; reflexivity).
  assert (E3 : Exp binary64 (INR 1) <= INR 3) by (cbn [INR Exp binary64]; assert (Q := exp_le_3); lra).
  split; [exact HR|]. split; [exact exponential64|]. split; [exact logarithm64|]. split; [|split].
  - apply (C118_safe_probabilities _ 100); [exact HR|exact exponential64|exact two_adds|lia|apply Hu|lia].
  - apply (C118_nested_probabilities _ 100 2 2 1 3); [exact HR|exact exponential64|exact logarithm64| |lra| |exact E3|lia|lia|lia|apply Hu|lia].
    + split; [intros j Hj; exact Hj| |exact two_adds]. intros h Hh. destruct h as [|[|h]]; [apply Permutation_refl|apply Permutation_refl|lia].
    + cbn [INR Log binary64]. replace (1 + 1) with 2 by ring. assert (E2 := exp_ineq1 1 ltac:(lra)). rewrite <- (ln_exp 1). left. apply ln_increasing; lra.
  - apply (C118_unsafe_moderate _ 100 2 1 3); [exact HR|exact exponential64|exact two_adds|exact E3|lia| |lia].
    intros k _. unfold pair. destruct (Nat.eqb k 0); eexists; (split; [reflexivity|cbn; lra]).
Qed.

(** C119: it is false that this also holds when options have been removed from the choice set, since the utility by which
    others are scaled down may be that of an option that was removed.  With double precision, removing a product with a
    utility of 2000 gives NaN for another one instead of one half, removing the outside option when the only utility is
    -2000 gives NaN instead of one, and nesting parameters of 127/128 and zero give NaN for utilities of 12 and zero. *)
Theorem C119_eliminated_product_refuted :
  exists v, probability binary64 2 two (fun k => negb (Nat.eqb k 0)) true (fun k => Num (v k)) true 1 = NaN /\
    logit 2 (fun k => negb (Nat.eqb k 0)) true v 1 = / 2.
Proof.
  exists (fun k => if Nat.eqb k 0 then 2000 else 0). split.
  - assert (E := excluded_nan). rewrite (probability_ext binary64 2 two _ true _ (pair 2000 0) true 1 two_adds); [exact E| |lia].
    intros k _. unfold pair. destruct (Nat.eqb k 0); reflexivity.
  - unfold logit. cbn [Nat.eqb negb indR sumn]. rewrite exp_0. lra.
Qed.
Print Assumptions C119_eliminated_product_refuted.

Theorem C119_eliminated_outside_refuted :
  exists v, probability binary64 1 (Leaf 0) (fun _ => true) false (fun _ => Num v) true 0 = NaN /\
    logit 1 (fun _ => true) false (fun _ => v) 0 = 1.
Proof.
  exists (-2000). split; [exact eliminated_nan|]. unfold logit. cbn [indR sumn]. assert (P := exp_pos (-2000)). field. lra.
Qed.
Print Assumptions C119_eliminated_outside_refuted.

Theorem C119_several_parameters_refuted :
  exists rho x, (forall h, 0 <= rho h < 1) /\ (forall k, in_unit (x k) \/ x k = Num 12) /\
    nested_choice binary64 2 (fun _ _ => Num 0) (fun j => j) Leaf two rho true x 0 0 = NaN.
Proof.
  exists rhos, (pair 12 0). split; [|split; [|exact several_choice_nan]].
  - intro h. unfold rhos. destruct (Nat.eqb h 0); lra.
  - intro k. unfold pair. destruct (Nat.eqb k 0); [right; reflexivity|left; exists 0; split; [reflexivity|lra]].
Qed.
Print Assumptions C119_several_parameters_refuted.

(** It holds if none of the options that were removed has the highest utility. *)
Theorem C119_highest_remains :
  forall A N J t included outside u j, rounds A N -> exponential A -> adds_up t J -> (S J <= N)%nat ->
  (forall k, (k < J)%nat -> exists r, u k = Num r) ->
  (outside = true /\ (forall k r, (k < J)%nat -> u k = Num r -> r <= 0)) \/
  (exists k m, (k < J)%nat /\ included k = true /\ u k = Num m /\ 0 <= m /\ forall i r, (i < J)%nat -> u i = Num r -> r <= m) ->
  (j < J)%nat -> in_unit (probability A J t included outside u true j).
Proof.
  intros A N J t included outside u j HR HE Ht HN Hu HC Hj.
  destruct (restricted_upto A N HR HE J t included outside u j Ht HN Hu HC Hj) as (r & E & B & _). exists r. auto.
Qed.
Print Assumptions C119_highest_remains.

Example C119_applies :
  in_unit (probability binary64 2 two (fun k => Nat.eqb k 0) false (pair 2000 0) true 0).
Proof.
  apply (C119_highest_remains _ 100); [apply rounds64; lia|exact exponential64|exact two_adds|lia| | |lia].
  - intros k _. unfold pair. destruct (Nat.eqb k 0); eexists; reflexivity.
  - right. exists 0%nat, 2000. repeat split; [lia|lra|]. intros i r _. unfold pair. destruct (Nat.eqb i 0); intro E; injection E as <-; lra.
Qed.

(** C120: with a lower bound on shares, such as the default, the contraction evaluated in floating point arithmetic at
    finite mean utilities gives finite ones, which are larger by at most the sum of bounds on logarithms of shares.
    Integration weights may be negative. *)
Theorem C120_contraction_finite :
  forall A N J I M W Q C X t agents mu weights shares lower upper x, rounds A N -> exponential A -> logarithm A ->
  market_data A N J I M W Q C agents mu weights shares lower upper ->
  adds_up t J -> (S J <= N)%nat -> (X + M <= N)%nat -> (X + Q + C <= N)%nat ->
  (forall k, (k < J)%nat -> bounded X (x k)) ->
  forall j, (j < J)%nat -> bounded (X + Q + C) (next A J t agents true mu weights shares lower upper x j).
Proof.
  intros A N J I M W Q C X t agents mu weights shares lower upper x HR HE HL HD Ht HJ HM HN Hx j Hj.
  exact (next_bounded A N HR HE HL J I M W Q C t agents mu weights shares lower upper HD X x j Ht HJ HM HN Hx Hj).
Qed.
Print Assumptions C120_contraction_finite.

(** With nesting, if groups have the same nesting parameter. *)
Theorem C120_nested_contraction_finite :
  forall A N J I M W Q C X agents mu weights shares lower upper x H L B K group group_tree groups_tree rho several,
  rounds A N -> exponential A -> logarithm A ->
  market_data A N J I M W Q C agents mu weights shares lower upper ->
  nests J H group group_tree groups_tree -> 0 <= rho <= 1 -> (0 < K)%nat -> / INR K <= rnd A (1 - rho) ->
  Log A (INR J) <= INR L -> Exp A (INR L) <= INR B -> (S (H * B) <= N)%nat -> (J <= N)%nat -> (L <= N)%nat ->
  (K * (X + M) <= N)%nat -> (X + Q + C <= N)%nat ->
  (forall k, (k < J)%nat -> bounded X (x k)) ->
  forall j, (j < J)%nat ->
  bounded (X + Q + C) (nested_next A J agents mu weights shares lower upper group group_tree groups_tree (fun _ => rho) several x j).
Proof.
  intros A N J I M W Q C X agents mu weights shares lower upper x H L B K group group_tree groups_tree rho several
    HR HE HL HD HG Hrho HK Hd HLJ HBL HHB HJ HLN HM HN Hx j Hj.
  exact (nested_next_bounded A N HR HE HL J I M W Q C agents mu weights shares lower upper HD H L B K group group_tree groups_tree (fun _ => rho) several
    HG (fun _ _ => Hrho) (fun _ _ _ _ _ => eq_refl) HLJ HBL HHB HJ HLN HK (fun _ _ => Hd) X x j HM HN Hx Hj).
Qed.
Print Assumptions C120_nested_contraction_finite.

(** So simple iteration is never stopped by values that are not finite: it returns finite values, and if it does not
    report convergence, it has used up its budget of evaluations. *)
Theorem C120_simple_iteration :
  forall A N J I M W Q C X t agents mu weights shares lower upper group group_tree groups_tree group_rho several tol budget initial,
  rounds A N -> exponential A -> logarithm A ->
  market_data A N J I M W Q C agents mu weights shares lower upper ->
  adds_up t J -> (S J <= N)%nat -> (1 <= budget)%nat -> (X + budget * (Q + C) + M <= N)%nat ->
  List.length initial = J -> Forall (bounded X) initial ->
  exists o, simple_iterator (rounded_contraction A J t agents true mu weights shares lower upper group group_tree groups_tree group_rho several false) tol budget initial = Some o /\
    Forall (bounded (X + budget * (Q + C))) (o_x o) /\ (o_converged o = false -> s_evaluations (o_st o) = budget).
Proof.
  intros A N J I M W Q C X t agents mu weights shares lower upper group group_tree groups_tree group_rho several tol budget initial HR HE HL HD Ht HJ HB HN Hl Hx.
  destruct budget as [|b]; [inversion HB|]. rewrite Nat.mul_succ_l in *.
  assert (St := simple_bounded J (Q + C) (X + b * (Q + C)) (next A J t agents true mu weights shares lower upper)).
  destruct (St ltac:(intros Y y HY Hy j Hj; rewrite Nat.add_assoc; apply (next_bounded A N HR HE HL J I M W Q C t agents mu weights shares lower upper HD Y y j Ht HJ); [lia|lia|exact Hy|exact Hj])
    tol (S b) X initial HB ltac:(cbn [Nat.mul]; lia) (conj Hl Hx)) as (o & E & F & G).
  exists o. split; [exact E|]. split; [|exact G]. rewrite Nat.mul_succ_l in F. exact F.
Qed.
Print Assumptions C120_simple_iteration.

Theorem C120_nested_simple_iteration :
  forall A N J I M W Q C X t agents mu weights shares lower upper H L B K group group_tree groups_tree rho several tol budget initial,
  rounds A N -> exponential A -> logarithm A ->
  market_data A N J I M W Q C agents mu weights shares lower upper ->
  nests J H group group_tree groups_tree -> 0 <= rho <= 1 -> (0 < K)%nat -> / INR K <= rnd A (1 - rho) ->
  Log A (INR J) <= INR L -> Exp A (INR L) <= INR B -> (S (H * B) <= N)%nat -> (J <= N)%nat -> (L <= N)%nat ->
  (1 <= budget)%nat -> (K * (X + budget * (Q + C) + M) <= N)%nat ->
  List.length initial = J -> Forall (bounded X) initial ->
  exists o, simple_iterator (rounded_contraction A J t agents true mu weights shares lower upper group group_tree groups_tree (fun _ => rho) several true) tol budget initial = Some o /\
    Forall (bounded (X + budget * (Q + C))) (o_x o) /\ (o_converged o = false -> s_evaluations (o_st o) = budget).
Proof.
  intros A N J I M W Q C X t agents mu weights shares lower upper H L B K group group_tree groups_tree rho several tol budget initial
    HR HE HL HD HG Hrho HK Hd HLJ HBL HHB HJ HLN HB HN Hl Hx.
  destruct budget as [|b]; [inversion HB|]. rewrite Nat.mul_succ_l in *.
  assert (St := simple_bounded J (Q + C) (X + b * (Q + C)) (nested_next A J agents mu weights shares lower upper group group_tree groups_tree (fun _ => rho) several)).
  destruct (St ltac:(intros Y y HY Hy j Hj; rewrite Nat.add_assoc; apply (nested_next_bounded A N HR HE HL J I M W Q C agents mu weights shares lower upper HD H L B K group group_tree groups_tree (fun _ => rho) several
    HG (fun _ _ => Hrho) (fun _ _ _ _ _ => eq_refl) HLJ HBL HHB HJ HLN HK (fun _ _ => Hd) Y y j); [clear - HN HY; nia|clear - HN HY HK; nia|exact Hy|exact Hj])
    tol (S b) X initial HB ltac:(cbn [Nat.mul]; lia) (conj Hl Hx)) as (o & E & F & G).
  exists o. split; [exact E|]. split; [|exact G]. rewrite Nat.mul_succ_l in F. exact F.
Qed.
Print Assumptions C120_nested_simple_iteration.

(** Without a lower bound, a share that underflows gives infinite mean utilities. *)
Theorem C120_without_bound_can_fail :
  exists x, next binary64 1 (Leaf 0) (Leaf 0) true (fun _ _ => Num 0) (fun _ => Num 1) (fun _ => Num (/ 2)) None None (fun _ => Num x) 0 = PInf.
Proof. exists (-2000). exact unbounded_inf. Qed.
Print Assumptions C120_without_bound_can_fail.

(** Double precision and the default lower bound, starting from a mean utility of -2000. *)
Example C120_applies :
  bounded 3201 (next binary64 1 (Leaf 0) (Leaf 0) true (fun _ _ => Num 0) (fun _ => Num 1) (fun _ => Num (/ 2)) (Some (Num (/ 10 ^ 300))) None (fun _ => Num (-2000)) 0) /\
  forall tol, exists o, simple_iterator (rounded_contraction binary64 1 (Leaf 0) (Leaf 0) true (fun _ _ => Num 0) (fun _ => Num 1) (fun _ => Num (/ 2))
      (Some (Num (/ 10 ^ 300))) None (fun j => j) Leaf (Leaf 0) (fun _ => 0) false false) tol 1000 [Num (-2000)] = Some o /\
    (o_converged o = false -> s_evaluations (o_st o) = 1000%nat).
Proof.
  set (cap := Z.to_nat 2000000). assert (HN : (Z.of_nat cap < 2 ^ 53)%Z) by (unfold cap; lia).
  assert (B : bounded 2000 (Num (-2000))) by (exists (-2000); split; [reflexivity|]; rewrite INR_IZR_INZ; change (Z.of_nat 2000) with 2000%Z; lra).
  split.
  - apply (C120_contraction_finite binary64 cap 1 1 0 1 1 1200 2000); [apply rounds64, HN|exact exponential64|exact logarithm64|apply default_market; unfold cap; lia|exact one_adds| | | | |].
    1-3: unfold cap; lia. { intros k _. exact B. } lia.
  - intro tol. destruct (C120_simple_iteration binary64 cap 1 1 0 1 1 1200 2000 (Leaf 0) (Leaf 0) (fun _ _ => Num 0) (fun _ => Num 1) (fun _ => Num (/ 2))
      (Some (Num (/ 10 ^ 300))) None (fun j => j) Leaf (Leaf 0) (fun _ => 0) false tol 1000 [Num (-2000)]) as (o & E & _ & G).
    + apply rounds64, HN.
    + exact exponential64.
    + exact logarithm64.
    + apply default_market. unfold cap. lia.
    + exact one_adds.
    + unfold cap. lia.
    + lia.
    + unfold cap. lia.
    + reflexivity.
    + constructor; [exact B|constructor].
    + exists o. auto.
Qed.

(** The same with nesting and a nesting parameter of one half. *)
Example C120_applies_nested :
  forall tol, exists o, simple_iterator (rounded_contraction binary64 1 (Leaf 0) (Leaf 0) true (fun _ _ => Num 0) (fun _ => Num 1) (fun _ => Num (/ 2))
      (Some (Num (/ 10 ^ 300))) None (fun j => j) Leaf (Leaf 0) (fun _ => / 2) false true) tol 1000 [Num (-2000)] = Some o /\
    (o_converged o = false -> s_evaluations (o_st o) = 1000%nat).
Proof.
  set (cap := Z.to_nat 3000000). assert (HN : (Z.of_nat cap < 2 ^ 53)%Z) by (unfold cap; lia). intro tol.
  destruct (C120_nested_simple_iteration binary64 cap 1 1 0 1 1 1200 2000 (Leaf 0) (Leaf 0) (fun _ _ => Num 0) (fun _ => Num 1) (fun _ => Num (/ 2))
      (Some (Num (/ 10 ^ 300))) None 1 0 1 2 (fun j => j) Leaf (Leaf 0) (/ 2) false tol 1000 [Num (-2000)]) as (o & E & _ & G).
  - apply rounds64, HN.
  - exact exponential64.
  - exact logarithm64.
  - apply default_market. unfold cap. lia.
  - split; [intros j Hj; exact Hj| |exact one_adds]. intros h Hh. destruct h as [|h]; [apply Permutation_refl|lia].
  - lra.
  - lia.
  - cbn [INR]. replace (1 - / 2) with (1 * bpow radix2 (-1)) by (cbn; lra). rewrite exact64 by lia. cbn. lra.
  - change (ln 1 <= 0). rewrite ln_1. lra.
  - change (exp 0 <= 1). rewrite exp_0. lra.
  - unfold cap. lia.
  - unfold cap. lia.
  - lia.
  - lia.
  - unfold cap. lia.
  - reflexivity.
  - constructor; [|constructor]. exists (-2000). split; [reflexivity|]. rewrite INR_IZR_INZ. change (Z.of_nat 2000) with 2000%Z. lra.
  - exists o. auto.
Qed.

(** C121: probabilities that are computed safely are accurate: relative to exact ones, errors are at most 10 (J + 2) times
    the precision eps of the arithmetic, as long as utilities do not overflow when they are subtracted from each other and
    none of the options that were removed has the highest utility. *)
Theorem C121_probability_accuracy :
  forall A N eps eta J U t included outside v j, rounds A N -> exponential A -> accurate A eps eta ->
  adds_up t J -> (S J <= N)%nat -> (2 * U <= N)%nat -> (forall k, (k < J)%nat -> - INR U <= v k <= INR U) ->
  (outside = true /\ (forall k, (k < J)%nat -> v k <= 0)) \/
  (exists k, (k < J)%nat /\ included k = true /\ 0 <= v k /\ forall i, (i < J)%nat -> v i <= v k) ->
  (j < J)%nat -> exists p, probability A J t included outside (fun k => Num (v k)) true j = Num p /\ 0 <= p <= 1 /\
    Rabs (p - logit J included outside v j) <= 10 * (INR J + 2) * eps.
Proof.
  intros A N eps eta J U t included outside v j HR HE HA. exact (probability_error A N eps eta HR HE HA J U t included outside v j).
Qed.
Print Assumptions C121_probability_accuracy.

(** And so are market shares at mean utilities x of at most X and mu of at most M in absolute value, with I agents and
    weights w, relative to exact shares. *)
Theorem C121_market_share_accuracy :
  forall A N eps eta J I X M t agents x w m j, rounds A N -> exponential A -> accurate A eps eta ->
  adds_up t J -> adds_up agents I -> (S J <= N)%nat -> (I <= N)%nat -> (2 * (X + M) <= N)%nat ->
  (forall k, (k < J)%nat -> - INR X <= x k <= INR X) -> (forall i k, (i < I)%nat -> (k < J)%nat -> - INR M <= m i k <= INR M) ->
  (forall i, (i < I)%nat -> 0 <= w i <= 1) -> (j < J)%nat ->
  exists s, market_share A agents (fun i => Num (w i)) (choice A J t true (fun i k => Num (m i k)) (fun k => Num (x k))) j = Num s /\
    Rabs (s - sumn I (fun i => w i * logit J all_goods true (fun k => x k + m i k) j)) <=
      (sumn I w * (10 * (INR J + 2) + 2 * INR (X + M) + 3) + 5 * INR I * Rmax 1 s) * eps.
Proof.
  intros A N eps eta J I X M t agents x w m j HR HE HA. exact (share_error A N eps eta HR HE HA J I X M t agents x w m j).
Qed.
Print Assumptions C121_market_share_accuracy.

(** Double precision: eps is 2 ^ -53. *)
Example C121_applies :
  accurate binary64 (bpow radix2 (-53)) (bpow radix2 (-1075)) /\
  exists p s, probability binary64 2 two (fun _ => true) true (fun k => Num (if Nat.eqb k 0 then 40 else -40)) true 1 = Num p /\
    Rabs (p - logit 2 (fun _ => true) true (fun k => if Nat.eqb k 0 then 40 else -40) 1) <= 40 * bpow radix2 (-53) /\
    market_share binary64 two (fun _ => Num (/ 2)) (choice binary64 2 two true (fun i _ => Num (INR i)) (fun _ => Num 0)) 0 = Num s.
Proof.
  split; [exact accurate64|]. assert (HR : rounds binary64 100) by (apply rounds64; lia).
  destruct (C121_probability_accuracy binary64 100 _ _ 2 40 two (fun _ => true) true (fun k => if Nat.eqb k 0 then 40 else -40) 1 HR exponential64 accurate64 two_adds) as (p & E & _ & D).
  - lia.
  - lia.
  - intros k _. rewrite INR_IZR_INZ. change (Z.of_nat 40) with 40%Z. destruct (Nat.eqb k 0); lra.
  - right. exists 0%nat. cbn [Nat.eqb]. repeat split; [lia|lra|]. intros i _. destruct (Nat.eqb i 0); lra.
  - lia.
  - destruct (C121_market_share_accuracy binary64 100 _ _ 2 2 0 1 two two (fun _ => 0) (fun _ => / 2) (fun i _ => INR i) 0 HR exponential64 accurate64 two_adds two_adds) as (s & Es & _).
    + lia.
    + lia.
    + lia.
    + intros k _. cbn. lra.
    + intros i k Hi _. destruct i as [|[|i]]; cbn; [lra|lra|lia].
    + intros i _. lra.
    + lia.
    + exists p, s. split; [exact E|]. split; [|exact Es]. replace (10 * (INR 2 + 2)) with 40 in D by (cbn; ring). exact D.
Qed.
