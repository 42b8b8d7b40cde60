(** Consumer surplus is convex in prices, and its subgradients are choice probabilities. *)
From Coq Require Import Reals Lra Lia List Bool Arith FunctionalExtensionality.
From Verif Require Import Base DemandSpec DemandModel DemandProofs DemandShares DemandDeriv DemandElim SupplyModel SupplySpec SupplyProofs
  WelfareModel WelfareSpec WelfareProofs EndoProofs SlopeProofs.
Import ListNotations.
Local Open Scope R_scope.

Lemma exp_ge z : 1 + z <= exp z.
Proof.
  destruct (Req_dec z 0) as [->|N]; [rewrite exp_0; lra|]. left. apply exp_ineq1; assumption.
Qed.

(** Weighted averages of exponentials. *)
Lemma jensen n (p d : nat -> R) c : (forall k, (k < n)%nat -> 0 <= p k) -> 0 <= c -> c + sumn n p = 1 ->
  exp (sumn n (fun k => p k * d k)) <= c + sumn n (fun k => p k * exp (d k)).
Proof.
  intros Hp Hc H1. set (m := sumn n (fun k => p k * d k)).
  assert (A : 1 <= c * exp (- m) + sumn n (fun k => p k * exp (d k - m))).
  { apply Rle_trans with (c * (1 + - m) + sumn n (fun k => p k * (1 + (d k - m)))).
    - rewrite (sumn_ext n (fun k => p k * (1 + (d k - m))) (fun k => p k * d k + (1 - m) * p k)) by (intros; ring).
      rewrite sumn_plus, sumn_scal. fold m. replace (sumn n p) with (1 - c) by lra. lra.
    - apply Rplus_le_compat; [apply Rmult_le_compat_l; [assumption|apply exp_ge]|].
      apply sumn_le. intros k Hk. apply Rmult_le_compat_l; [apply Hp; assumption|apply exp_ge]. }
  assert (E := exp_pos m). apply Rmult_le_compat_l with (r := exp m) in A; [|lra]. rewrite Rmult_1_r in A.
  eapply Rle_trans; [exact A|]. rewrite Rmult_plus_distr_l, <- sumn_scal. apply Rplus_le_compat.
  - replace (exp m * (c * exp (- m))) with (c * (exp m * exp (- m))) by ring. rewrite <- exp_plus, Rplus_opp_r, exp_0. lra.
  - right. apply sumn_ext. intros k _. replace (exp m * (p k * exp (d k - m))) with (p k * (exp m * exp (d k - m))) by ring.
    rewrite <- exp_plus. do 2 f_equal. ring.
Qed.

Lemma ln_le_mono x y : 0 < x -> x <= y -> ln x <= ln y.
Proof. intros Hx [L| ->]; [left; apply ln_increasing; assumption|lra]. Qed.

Section Nested.
Variables (J H : nat) (grp : nat -> nat) (r : nat -> R) (inc : nat -> bool) (U U' : nat -> R).
Hypothesis Hg : forall k, (k < J)%nat -> (grp k < H)%nat.
Hypothesis Hr : forall h, (h < H)%nat -> r h < 1.
Notation Incl := (inclusive J grp r inc).
Notation GW := (group_weight J grp r inc).
Notation member h k := (inc k && Nat.eqb (grp k) h).
Definition tilt (h : nat) : R := sumn J (fun k => if member h k then within_group J grp r inc U k * (U' k - U k) else 0).

Lemma member_pos h : existsb (fun k => member h k) (seq 0 J) = true -> forall W, 0 < Incl W h.
Proof.
  intros E W. apply existsb_exists in E. destruct E as [k [Hk M]]. apply in_seq in Hk. apply sumn_pos.
  - intros l Hl. destruct (member h l); [left; apply exp_pos|lra].
  - exists k. split; [lia|]. rewrite M. apply exp_pos.
Qed.

Lemma group_tilt h : (h < H)%nat -> GW U h * exp (tilt h) <= GW U' h.
Proof.
  intros Hh. unfold group_weight. destruct (existsb _ _) eqn:E; [|lra].
  assert (S := member_pos h E U). assert (S' := member_pos h E U'). assert (R1 := Hr h Hh).
  unfold Rpower. rewrite <- exp_plus.
  assert (K : ln (Incl U h) + tilt h / (1 - r h) <= ln (Incl U' h)).
  { rewrite <- (ln_exp (ln (Incl U h) + tilt h / (1 - r h))). apply ln_le_mono; [apply exp_pos|].
    rewrite exp_plus, exp_ln by assumption.
    set (p := fun k => if member h k then exp (U k / (1 - r h)) / Incl U h else 0).
    set (d := fun k => (U' k - U k) / (1 - r h)).
    assert (T : tilt h / (1 - r h) = sumn J (fun k => p k * d k)).
    { unfold tilt, Rdiv at 1. rewrite <- sumn_scal_r. apply sumn_ext. intros k Hk. unfold p, d.
      destruct (inc k) eqn:I; destruct (Nat.eqb_spec (grp k) h) as [G|G]; cbn [andb]; try ring.
      unfold within_group. rewrite I, G. field. split; lra. }
    rewrite T. assert (P1 : sumn J p = 1).
    { unfold p. rewrite (sumn_ext J _ (fun k => / Incl U h * (if member h k then exp (U k / (1 - r h)) else 0))).
      - rewrite sumn_scal. fold (Incl U h). apply Rinv_l. lra.
      - intros k _. destruct (member h k); unfold Rdiv; ring. }
    assert (Q := jensen J p d 0).
    assert (Q1 : exp (sumn J (fun k => p k * d k)) <= 0 + sumn J (fun k => p k * exp (d k))).
    { apply Q; [|lra|lra]. intros k _. unfold p. destruct (member h k); [|lra]. left.
      apply Rmult_lt_0_compat; [apply exp_pos|apply Rinv_0_lt_compat; assumption]. }
    rewrite Rplus_0_l in Q1. apply Rmult_le_compat_l with (r := Incl U h) in Q1; [|lra].
    eapply Rle_trans; [exact Q1|]. right. rewrite <- sumn_scal. unfold inclusive at 2. apply sumn_ext. intros k _. unfold p, d.
    destruct (member h k); [|ring]. replace (Incl U h * (exp (U k / (1 - r h)) / Incl U h * exp ((U' k - U k) / (1 - r h))))
      with (exp (U k / (1 - r h)) * exp ((U' k - U k) / (1 - r h))) by (field; lra).
    rewrite <- exp_plus. f_equal. field. lra. }
  assert (L : (1 - r h) * ln (Incl U h) + tilt h <= (1 - r h) * ln (Incl U' h)).
  { apply Rmult_le_compat_l with (r := 1 - r h) in K; [|lra].
    replace ((1 - r h) * (ln (Incl U h) + tilt h / (1 - r h))) with ((1 - r h) * ln (Incl U h) + tilt h) in K by (field; lra). exact K. }
  destruct (Rle_lt_or_eq_dec _ _ L) as [LT|EQ]; [left; apply exp_increasing; exact LT|rewrite EQ; lra].
Qed.

(** The subgradient inequality of the log-sum. *)
Lemma logsum_subgradient :
  ln (1 + sumn H (GW U)) + sumn J (fun k => nested J H grp r inc true U k * (U' k - U k)) <= ln (1 + sumn H (GW U')).
Proof.
  set (W := 1 + sumn H (GW U)). set (W' := 1 + sumn H (GW U')).
  assert (G0 : forall V h, 0 <= GW V h) by (intros; apply group_weight_nonneg).
  assert (W1 : 1 <= W). { unfold W. assert (0 <= sumn H (GW U)) by (apply sumn_nonneg; auto). lra. }
  assert (W1' : 1 <= W'). { unfold W'. assert (0 <= sumn H (GW U')) by (apply sumn_nonneg; auto). lra. }
  assert (E : sumn J (fun k => nested J H grp r inc true U k * (U' k - U k)) = sumn H (fun h => GW U h / W * tilt h)).
  { unfold tilt. rewrite (sumn_ext H _ (fun h => sumn J (fun k => GW U h / W * (if member h k then within_group J grp r inc U k * (U' k - U k) else 0))))
      by (intros; rewrite sumn_scal; reflexivity).
    rewrite sumn_swap. apply sumn_ext. intros k Hk.
    rewrite (sumn_ext H _ (fun h => if Nat.eqb h (grp k) then (if inc k then GW U (grp k) / W * (within_group J grp r inc U k * (U' k - U k)) else 0) else 0)).
    - rewrite (sumn_delta H (grp k) (fun _ => if inc k then GW U (grp k) / W * (within_group J grp r inc U k * (U' k - U k)) else 0) (Hg k Hk)).
      unfold nested, group_share. cbn [indR]. fold W. unfold within_group at 1 2. destruct (inc k); [|ring].
      unfold within_group. destruct (inc k); ring.
    - intros h _. rewrite (Nat.eqb_sym (grp k) h). destruct (Nat.eqb_spec h (grp k)) as [->|]; destruct (inc k); cbn [andb]; ring. }
  rewrite E.
  assert (Q := jensen H (fun h => GW U h / W) tilt (/ W)).
  assert (Q1 : exp (sumn H (fun h => GW U h / W * tilt h)) <= / W + sumn H (fun h => GW U h / W * exp (tilt h))).
  { apply Q.
    - intros h _. apply Rmult_le_pos; [apply G0|left; apply Rinv_0_lt_compat; lra].
    - left. apply Rinv_0_lt_compat. lra.
    - unfold Rdiv. rewrite sumn_scal_r. replace (sumn H (GW U)) with (W - 1) by (unfold W; ring). field. lra. }
  rewrite <- (ln_exp (ln W + _)). apply ln_le_mono; [apply exp_pos|]. rewrite exp_plus, exp_ln by lra.
  apply Rmult_le_compat_l with (r := W) in Q1; [|lra]. eapply Rle_trans; [exact Q1|].
  rewrite Rmult_plus_distr_l, Rinv_r, <- sumn_scal by lra. unfold W' at 1. apply Rplus_le_compat_l. apply sumn_le. intros h Hh.
  replace (W * (GW U h / W * exp (tilt h))) with (GW U h * exp (tilt h)) by (field; lra). apply group_tilt. assumption.
Qed.
End Nested.

Section Prices.
Variables (M : full_market) (a : nat -> R).
Notation J := (mJ (fm M)).
Notation CS := (consumer_surplus M (fun _ => None) None).
Hypothesis V : valid_market (fm M).
Hypothesis G : forall y, good_columns M y.
Hypothesis Eps : eps_scale (fm M) = 1.
Hypothesis Hw : forall i, (i < fI M)%nat -> 0 <= fw M i.
Hypothesis Ha : forall i, (i < fI M)%nat -> 0 < a i.
Hypothesis Hi : forall i, (i < fI M)%nat -> no_income_effects J (price_utility M i) (a i).

Lemma utility_linear i j x y : (i < fI M)%nat -> (j < J)%nat ->
  price_utility M i y j - price_utility M i x j = - a i * (y j - x j).
Proof.
  intros Hi' Hj.
  assert (E : forall z, price_utility M i z j = price_utility M i (upd x j (z j)) j).
  { intros z. unfold price_utility, update_delta, update_mu, compute_mu. rewrite !upd_at. reflexivity. }
  assert (L : forall s t, s < t -> price_utility M i (upd x j t) j - price_utility M i (upd x j s) j = - a i * (t - s)).
  { intros s t L. destruct (along (fun z => price_utility M i z j) x j (fun _ => - a i)) with (s := s) (t := t) as [c [_ D]].
    - intros z. assert (D := Hi i Hi' z j j Hj Hj). rewrite Nat.eqb_refl in D. exact D.
    - exact L.
    - exact D. }
  rewrite (E y), (E x). destruct (Rtotal_order (x j) (y j)) as [H|[H|H]].
  - apply L. exact H.
  - rewrite H. ring.
  - specialize (L _ _ H). lra.
Qed.

Lemma surplus_subgradient x y : CS x - CS y <= sumn J (fun j => shares_at M x j * (y j - x j)).
Proof.
  unfold shares_at. rewrite (sumn_ext J _ (fun j => sumn (fI M) (fun i => probs (fm M) (update_delta M x) (update_mu M x) i j * fw M i * (y j - x j))))
    by (intros; rewrite sumn_scal_r; reflexivity).
  rewrite sumn_swap. unfold consumer_surplus. rewrite <- sumn_minus. apply sumn_le. intros i Hi'.
  rewrite (sumn_ext J _ (fun j => fw M i * (probs (fm M) (update_delta M x) (update_mu M x) i j * (y j - x j)))) by (intros; ring).
  rewrite sumn_scal, <- Rmult_minus_distr_r, Rmult_comm. apply Rmult_le_compat_l; [apply Hw; assumption|].
  destruct (Nat.eq_dec J 0) as [J0|J1].
  { unfold individual_surplus. rewrite <- Rdiv_minus_distr. rewrite J0. cbn [sumn].
    assert (Q : forall z, surplus_numerator (fm M) None None (update_delta M z) (update_mu M z i)
       = ln (1 + surplus_weights (fm M) (included None None None) (price_utility M i z))).
    { intros z. apply (surplus_numerator_exact (fm M) None None (update_delta M z) (update_mu M z i) V). }
    rewrite !Q. rewrite (surplus_weights_ext (fm M) _ (price_utility M i x) (price_utility M i y)) by (rewrite J0; lia).
    unfold Rdiv. rewrite Rminus_diag_eq by reflexivity. lra. }
  unfold individual_surplus.
  rewrite (no_income_derivative M i (a i) (var0 M) 0 V G Eps (Hi i Hi')) by lia. rewrite Ropp_involutive.
  assert (A := Ha i Hi').
  assert (Q : forall z, surplus_numerator (fm M) None None (update_delta M z) (update_mu M z i)
     = ln (1 + surplus_weights (fm M) (included None None None) (price_utility M i z))).
  { intros z. apply (surplus_numerator_exact (fm M) None None (update_delta M z) (update_mu M z i) V). }
  rewrite !Q. unfold surplus_weights. rewrite included_all.
  assert (K := logsum_subgradient J (grpn (fm M)) (gidx (fm M)) (grhox (fm M)) all_goods (price_utility M i x) (price_utility M i y)
    (fun k Hk => gidx_lt (fm M) k V Hk) (fun h Hh => grhox_lt (fm M) h V Hh)).
  assert (P : sumn J (fun k => nested J (grpn (fm M)) (gidx (fm M)) (grhox (fm M)) all_goods true (price_utility M i x) k
                 * (price_utility M i y k - price_utility M i x k))
              = - a i * sumn J (fun j => probs (fm M) (update_delta M x) (update_mu M x) i j * (y j - x j))).
  { rewrite <- sumn_scal. apply sumn_ext. intros k Hk. rewrite utility_linear by assumption. unfold probs.
    rewrite full_choice_with, probabilities_nested, included_all by assumption.
    replace (utility (fm M) (update_delta M x) (update_mu M x i)) with (price_utility M i x).
    - ring.
    - apply functional_extensionality. intros j. unfold price_utility, utility. rewrite Eps. field. }
  rewrite P in K. apply Rmult_le_reg_l with (a i); [assumption|]. rewrite Rmult_minus_distr_l.
  replace (a i * (ln (1 + sumn (grpn (fm M)) (group_weight J (gidx (fm M)) (grhox (fm M)) all_goods (price_utility M i x))) / a i))
    with (ln (1 + sumn (grpn (fm M)) (group_weight J (gidx (fm M)) (grhox (fm M)) all_goods (price_utility M i x)))) by (field; lra).
  replace (a i * (ln (1 + sumn (grpn (fm M)) (group_weight J (gidx (fm M)) (grhox (fm M)) all_goods (price_utility M i y))) / a i))
    with (ln (1 + sumn (grpn (fm M)) (group_weight J (gidx (fm M)) (grhox (fm M)) all_goods (price_utility M i y)))) by (field; lra).
  lra.
Qed.

Lemma surplus_two_bounds x y :
  sumn J (fun j => shares_at M y j * (y j - x j)) <= CS x - CS y <= sumn J (fun j => shares_at M x j * (y j - x j)).
Proof.
  split; [|apply surplus_subgradient]. assert (S := surplus_subgradient y x).
  rewrite (sumn_ext J _ (fun j => -1 * (shares_at M y j * (y j - x j)))) in S by (intros; ring). rewrite sumn_scal in S. lra.
Qed.

Lemma law_of_demand x y : sumn J (fun j => (y j - x j) * (shares_at M y j - shares_at M x j)) <= 0.
Proof.
  destruct (surplus_two_bounds x y) as [A B].
  rewrite (sumn_ext J _ (fun j => shares_at M y j * (y j - x j) - shares_at M x j * (y j - x j))) by (intros; ring).
  rewrite sumn_minus. lra.
Qed.
End Prices.
