(** Signs of implied markups and their order in how much firms cooperate. *)
From Coq Require Import Reals Lra Lia List Bool Arith.
From Verif Require Import Base DemandSpec DemandModel DemandProofs SupplyModel SupplySpec SupplyProofs WelfareModel EndoModel EndoSpec EndoProofs MarkupSpec.
Import ListNotations.
Local Open Scope R_scope.

Section Dominant.
Variables (J : nat) (A : nat -> nat -> R).
Hypothesis Off : forall j k, (j < J)%nat -> (k < J)%nat -> j <> k -> A j k <= 0.
Hypothesis Sum : forall j, (j < J)%nat -> 0 < sumn J (A j).

Lemma split_row j v : (j < J)%nat ->
  sumn J (fun k => A j k * v k) = A j j * v j + sumn J (fun k => if Nat.eqb k j then 0 else A j k * v k).
Proof using.
  intros Hj. rewrite <- (sumn_delta J j (fun k => A j k * v k) Hj), <- sumn_plus. apply sumn_ext. intros k _.
  destruct (Nat.eqb k j); ring.
Qed.

(** Matrices with dominant diagonals and no positive elements elsewhere have inverses without negative
    elements. *)
Lemma dominant_nonneg v : (forall j, (j < J)%nat -> 0 <= sumn J (fun k => A j k * v k)) -> forall j, (j < J)%nat -> 0 <= v j.
Proof.
  intros H j Hj. destruct J as [|N] eqn:EJ; [lia|]. rewrite <- EJ in *.
  destruct (maxn_attained N (fun k => - v k)) as [l [Hl E]].
  assert (Hl' : (l < J)%nat) by lia.
  assert (G : forall k, (k < J)%nat -> v l <= v k).
  { intros k Hk. assert (X := maxn_ge N (fun k => - v k) k ltac:(lia)). rewrite E in X. lra. }
  apply Rle_trans with (v l); [|apply G; assumption]. apply Rnot_lt_le. intros Neg.
  assert (K : sumn J (fun k => A l k * v k) <= sumn J (A l) * v l).
  { rewrite <- sumn_scal_r. apply sumn_le. intros k Hk. destruct (Nat.eq_dec l k) as [->|N0]; [lra|].
    assert (B := Off l k Hl' Hk N0). assert (C := G k Hk).
    assert (0 <= - A l k * (v k - v l)) by (apply Rmult_le_pos; lra). lra. }
  assert (S := Sum l Hl'). assert (Z := H l Hl').
  assert (0 < sumn J (A l) * - v l) by (apply Rmult_lt_0_compat; lra). lra.
Qed.

Lemma diagonal_pos j : (j < J)%nat -> 0 < A j j.
Proof.
  intros Hj. assert (S := Sum j Hj). rewrite (sumn_ext J (A j) (fun k => A j k * 1)) in S by (intros; ring).
  rewrite (split_row j (fun _ => 1) Hj) in S.
  assert (sumn J (fun k => if Nat.eqb k j then 0 else A j k * 1) <= 0); [|lra].
  apply Rle_trans with (sumn J (fun _ => 0)); [|rewrite sumn_zero; lra]. apply sumn_le. intros k Hk. destruct (Nat.eqb_spec k j); [lra|].
  assert (B := Off j k Hj Hk ltac:(auto)). lra.
Qed.

Lemma dominant_bound v j : (forall k, (k < J)%nat -> 0 <= v k) -> (j < J)%nat ->
  sumn J (fun k => A j k * v k) <= A j j * v j.
Proof using Off.
  intros H Hj. rewrite (split_row j v Hj).
  assert (sumn J (fun k => if Nat.eqb k j then 0 else A j k * v k) <= 0); [|lra].
  apply Rle_trans with (sumn J (fun _ => 0)); [|rewrite sumn_zero; lra]. apply sumn_le. intros k Hk. destruct (Nat.eqb_spec k j); [lra|].
  assert (B := Off j k Hj Hk ltac:(auto)). assert (C := H k Hk).
  assert (0 <= - A j k * v k) by (apply Rmult_le_pos; lra). lra.
Qed.

Lemma dominant_pos v j : (forall j, (j < J)%nat -> 0 <= sumn J (fun k => A j k * v k)) -> (j < J)%nat ->
  0 < sumn J (fun k => A j k * v k) -> 0 < v j.
Proof.
  intros H Hj P. assert (B := dominant_bound v j (dominant_nonneg v H) Hj). assert (D := diagonal_pos j Hj).
  apply Rmult_lt_reg_l with (A j j); lra.
Qed.
End Dominant.

Section Markups.
Variables (M : full_market) (x : nat -> R).
Hypothesis V : valid_market (fm M).
Hypothesis PA : price_averse M x.
Notation J := (mJ (fm M)).
Notation D := (shares_jacobian M x).

Lemma delta_off O : cooperation J O -> forall j k, (j < J)%nat -> (k < J)%nat -> j <> k -> capital_delta M O x j k <= 0.
Proof.
  intros [_ C] j k Hj Hk N. rewrite capital_delta_jacobian. assert (P := cross_positive M x k j V PA Hk Hj ltac:(auto)).
  assert (B := C j k Hj Hk). assert (0 <= O j k * D k j) by (apply Rmult_le_pos; lra). lra.
Qed.

Lemma delta_sum O : cooperation J O -> forall j, (j < J)%nat -> 0 < sumn J (capital_delta M O x j).
Proof.
  intros [C1 C] j Hj. assert (T := column_total M x j V PA Hj). rewrite <- Ropp_0 in T. apply Ropp_lt_cancel.
  rewrite Ropp_0. apply Rle_lt_trans with (sumn J (fun k => D k j)); [|lra].
  rewrite <- sumn_opp. apply sumn_le. intros k Hk. rewrite capital_delta_jacobian, Ropp_involutive.
  destruct (Nat.eq_dec j k) as [<-|N]; [rewrite (C1 j Hj); lra|].
  assert (P := cross_positive M x k j V PA Hk Hj ltac:(auto)). assert (B := C j k Hj Hk).
  assert (0 <= (1 - O j k) * D k j) by (apply Rmult_le_pos; lra). lra.
Qed.

Lemma equation_delta O s m j : markup_equation J O D s m -> (j < J)%nat ->
  sumn J (fun k => capital_delta M O x j k * m k) = s j.
Proof using.
  intros H Hj. specialize (H j Hj). rewrite (sumn_ext J _ (fun k => - (O j k * D k j * m k))).
  - rewrite sumn_opp. lra.
  - intros k _. rewrite capital_delta_jacobian. ring.
Qed.

Variable s : nat -> R.
Hypothesis Hs : forall j, (j < J)%nat -> 0 < s j.

Lemma markups_positive O m j : cooperation J O -> markup_equation J O D s m -> (j < J)%nat -> 0 < m j.
Proof.
  intros C H Hj. apply (dominant_pos J (capital_delta M O x) (delta_off O C) (delta_sum O C)).
  - intros k Hk. rewrite (equation_delta O s m k H Hk). left. apply Hs; assumption.
  - assumption.
  - rewrite (equation_delta O s m j H Hj). apply Hs; assumption.
Qed.

Lemma difference O O' m m' : cooperation J O -> less_competition J O O' ->
  markup_equation J O D s m -> markup_equation J O' D s m' ->
  forall j, (j < J)%nat ->
  sumn J (fun k => capital_delta M O' x j k * (m' k - m k))
  = sumn J (fun k => (O' j k - O j k) * D k j * m k).
Proof using.
  intros C L H H' j Hj.
  rewrite (sumn_ext J _ (fun k => capital_delta M O' x j k * m' k - capital_delta M O' x j k * m k)) by (intros; ring).
  rewrite sumn_minus, (equation_delta O' s m' j H' Hj), <- (equation_delta O s m j H Hj), <- sumn_minus.
  apply sumn_ext. intros k _. rewrite !capital_delta_jacobian. ring.
Qed.

Lemma markups_ordered O O' m m' : cooperation J O -> cooperation J O' -> less_competition J O O' ->
  markup_equation J O D s m -> markup_equation J O' D s m' ->
  forall j, (j < J)%nat -> m j <= m' j /\ ((exists k, (k < J)%nat /\ O j k < O' j k) -> m j < m' j).
Proof.
  intros C C' L H H'.
  assert (T : forall j k, (j < J)%nat -> (k < J)%nat -> 0 <= (O' j k - O j k) * D k j * m k).
  { intros j k Hj Hk. assert (P := markups_positive O m k C H Hk). apply Rmult_le_pos; [|lra].
    destruct (Nat.eq_dec j k) as [<-|N].
    - rewrite (proj1 C j Hj), (proj1 C' j Hj). lra.
    - assert (Q := cross_positive M x k j V PA Hk Hj ltac:(auto)). assert (B := L j k Hj Hk). apply Rmult_le_pos; lra. }
  assert (NN : forall j, (j < J)%nat -> 0 <= sumn J (fun k => capital_delta M O' x j k * (m' k - m k))).
  { intros j Hj. rewrite (difference O O' m m' C L H H' j Hj). apply sumn_nonneg. intros k Hk. apply T; assumption. }
  intros j Hj. split.
  - assert (X := dominant_nonneg J _ (delta_off O' C') (delta_sum O' C') _ NN j Hj). cbv beta in X. lra.
  - intros [k [Hk S]].
    assert (X := dominant_pos J _ (delta_off O' C') (delta_sum O' C') _ j NN Hj). cbv beta in X.
    rewrite (difference O O' m m' C L H H' j Hj) in X. enough (0 < m' j - m j) by lra. apply X.
    apply sumn_pos; [intros l Hl; apply T; assumption|]. exists k. split; [assumption|].
    apply Rmult_lt_0_compat; [|apply (markups_positive O m k C H Hk)].
    destruct (Nat.eq_dec j k) as [<-|N].
    + rewrite (proj1 C j Hj), (proj1 C' j Hj) in S. lra.
    + assert (Q := cross_positive M x k j V PA Hk Hj ltac:(auto)). apply Rmult_lt_0_compat; lra.
Qed.

Lemma own_bound O m j : cooperation J O -> markup_equation J O D s m -> (j < J)%nat ->
  s j <= - D j j * m j /\ (alone J O j -> s j = - D j j * m j).
Proof.
  intros C H Hj. assert (E := equation_delta O s m j H Hj).
  assert (Dj : capital_delta M O x j j = - D j j) by (rewrite capital_delta_jacobian, (proj1 C j Hj); ring).
  split.
  - rewrite <- E, <- Dj. apply (dominant_bound J (capital_delta M O x) (delta_off O C)); [|assumption].
    intros k Hk. left. apply (markups_positive O m k C H Hk).
  - intros A. rewrite (split_row J (capital_delta M O x) j m Hj) in E. rewrite Dj in E. rewrite <- E.
    rewrite (sumn_ext J _ (fun _ => 0)); [rewrite sumn_zero; ring|]. intros k Hk. destruct (Nat.eqb_spec k j) as [|N]; [reflexivity|].
    rewrite capital_delta_jacobian, (A k Hk N). ring.
Qed.
End Markups.

(* ---------- what post-estimation methods return ---------- *)

Section Outputs.
Variables (solve : solver) (M : full_market) (s : nat -> R).
Hypothesis V : valid_market (fm M).
Hypothesis PA : price_averse M (var0 M).
Notation J := (mJ (fm M)).
Hypothesis X : exact_solver J solve.
Hypothesis Hs : forall j, (j < J)%nat -> 0 < s j.
Notation D := (shares_jacobian M (var0 M)).
Notation costs O := (fst (compute_costs solve M O s)).
Notation fine O := (snd (compute_costs solve M O s) = false).

Lemma costs_below O j : cooperation J O -> fine O -> (j < J)%nat -> costs O j < var0 M j.
Proof.
  intros C E Hj. assert (P := markups_positive M (var0 M) V PA s Hs O _ j C (costs_markup_equation solve M O s X E) Hj).
  cbv beta in P. lra.
Qed.

Lemma costs_ordered O O' : cooperation J O -> cooperation J O' -> less_competition J O O' -> fine O -> fine O' ->
  forall j, (j < J)%nat -> costs O' j <= costs O j /\ ((exists k, (k < J)%nat /\ O j k < O' j k) -> costs O' j < costs O j).
Proof.
  intros C C' L E E' j Hj.
  destruct (markups_ordered M (var0 M) V PA s Hs O O' _ _ C C' L (costs_markup_equation solve M O s X E)
              (costs_markup_equation solve M O' s X E') j Hj) as [P Q]. cbv beta in P, Q.
  split; [lra|]. intros N. specialize (Q N). lra.
Qed.

Lemma lerner O j : cooperation J O -> fine O -> (j < J)%nat -> 0 < var0 M j ->
  - 1 / elasticities M s j j <= markups (var0 M) (costs O) j /\
  (alone J O j -> markups (var0 M) (costs O) j = - 1 / elasticities M s j j).
Proof.
  intros C E Hj P. destruct (own_bound M (var0 M) V PA s Hs O _ j C (costs_markup_equation solve M O s X E) Hj) as [B Q].
  cbv beta in B, Q. assert (N := own_negative M (var0 M) j V PA Hj). assert (S := Hs j Hj).
  assert (R : - 1 / elasticities M s j j = s j / (- D j j) / var0 M j).
  { unfold elasticities. field. repeat split; lra. }
  rewrite R. unfold markups. split.
  - unfold Rdiv. apply Rmult_le_compat_r; [left; apply Rinv_0_lt_compat; assumption|].
    apply Rmult_le_reg_r with (- D j j); [lra|]. rewrite Rmult_assoc, Rinv_l by lra. lra.
  - intros A. specialize (Q A). rewrite Q. field. split; lra.
Qed.

Lemma inelastic O j : cooperation J O -> fine O -> (j < J)%nat -> 0 < var0 M j ->
  - 1 < elasticities M s j j -> costs O j < 0.
Proof.
  intros C E Hj P I. destruct (own_bound M (var0 M) V PA s Hs O _ j C (costs_markup_equation solve M O s X E) Hj) as [B _].
  cbv beta in B. assert (N := own_negative M (var0 M) j V PA Hj). assert (S := Hs j Hj). unfold elasticities in I.
  assert (G : - D j j * var0 M j < s j).
  { assert (K : - s j < D j j * var0 M j); [|lra].
    apply Rmult_lt_reg_r with (/ s j); [apply Rinv_0_lt_compat; assumption|]. rewrite Ropp_mult_distr_l_reverse, Rinv_r by lra.
    exact I. }
  assert (K : - D j j * var0 M j < - D j j * (var0 M j - costs O j)) by lra.
  apply Rmult_lt_reg_l in K; lra.
Qed.

Lemma approximate_rises O O' : cooperation J O -> cooperation J O' -> less_competition J O O' ->
  snd (compute_approximate_prices solve M O O' s None) = false -> forall j, (j < J)%nat ->
  let p := fst (compute_approximate_prices solve M O O' s None) in
  var0 M j <= p j /\ ((exists k, (k < J)%nat /\ O j k < O' j k) -> var0 M j < p j).
Proof.
  intros C C' L E j Hj. unfold compute_approximate_prices in *.
  destruct (compute_costs solve M O s) as [c b1] eqn:E1. destruct (compute_eta solve M O' s) as [eta b2] eqn:E2.
  cbn [fst snd] in *. apply orb_false_iff in E. destruct E as [-> ->].
  assert (F1 : fine O) by (rewrite E1; reflexivity).
  assert (F2 : compute_costs solve M O' s = (fun j => var0 M j - eta j, false)) by (unfold compute_costs; rewrite E2; reflexivity).
  assert (F2' : fine O') by (rewrite F2; reflexivity).
  destruct (costs_ordered O O' C C' L F1 F2' j Hj) as [P Q]. rewrite E1, F2 in P, Q. cbn [fst] in P, Q.
  split; [lra|]. intros N. specialize (Q N). lra.
Qed.
End Outputs.
