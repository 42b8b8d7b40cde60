(** A monopolist and two types of consumers: prices that are stationary but not best. *)
From Coq Require Import Reals ZArith Lra Lia List Bool Arith.
From Verif Require Import Base FltModel IterModel DemandModel DemandSpec DemandProofs DemandDeriv DemandElim SupplyModel SupplySpec SupplyProofs
  PostModel EquilModel NashSpec.
Import ListNotations.
Local Open Scope R_scope.

(** Half of all consumers dislike prices ten times as much as others.  At the observed price, two thirds of them
    and four fifths of the others buy. *)
Definition dislikes (i : nat) : R := match i with O => 1 | _ => / 10 end.
Definition observed_price : R := 10 / 9 * ln 2.
Definition observed_utility : R := 19 / 9 * ln 2.
Definition two_types : full_market :=
  mk_full_market (mk_market 1 0 (fun _ => O) false (fun _ => 0) 1) 2 (fun _ => / 2)
    0 (fun _ => mk_column false (fun _ _ => 0) (fun _ _ => 0) (fun _ _ => 0)) (fun _ => 0)
    1 (fun _ => mk_column true (fun _ x => x) (fun _ _ => 1) (fun _ _ => 0)) (fun _ _ i => - dislikes i)
    (fun _ => observed_price) (fun _ => observed_utility) (fun _ _ => observed_price).

Lemma two_types_valid : valid_market (fm two_types).
Proof. constructor; cbn; intros; try lia; try lra; congruence. Qed.
Lemma two_types_good x : good_columns two_types x.
Proof.
  split; intros k j Hu Hk Hj; [cbn in Hk; lia|]. cbn. apply dlim_id.
Qed.

Lemma two_types_probs x i : probs (fm two_types) (update_delta two_types x) (update_mu two_types x) i 0 =
  exp (observed_utility - dislikes i * x 0%nat) / (1 + exp (observed_utility - dislikes i * x 0%nat)).
Proof.
  unfold probs. destruct (probabilities_are_logit (fm two_types) true (update_delta two_types x) (update_mu two_types x i) two_types_valid) as [A _].
  rewrite (A eq_refl 0%nat ltac:(cbn; lia)). unfold logit, all_goods. cbn [fm two_types mJ sumn indR].
  assert (U : (update_delta two_types x 0 + update_mu two_types x i 0) / eps_scale (mk_market 1 0 (fun _ => 0%nat) false (fun _ => 0) 1)
    = observed_utility - dislikes i * x 0%nat).
  { unfold update_delta, update_mu, compute_mu. cbn [two_types fm fK1 fK2 sumn delta0 fX2 uses ev fcoef eps_scale]. field. }
  rewrite U, Rplus_0_l. reflexivity.
Qed.
Lemma two_types_derivatives x i : utility_derivatives two_types false x i 0 = - dislikes i.
Proof. unfold utility_derivatives. rewrite eps_div. cbn [two_types fm fK1 fK2 sumn fX2 uses dv1 fcoef eps_scale]. field. Qed.

Definition share_of_type (i : nat) (x : R) : R :=
  exp (observed_utility - dislikes i * x) / (1 + exp (observed_utility - dislikes i * x)).
Lemma two_types_shares x : shares_at two_types x 0 = (share_of_type 0 (x 0%nat) + share_of_type 1 (x 0%nat)) / 2.
Proof.
  unfold shares_at. cbn [fI two_types fw sumn]. rewrite !two_types_probs. unfold share_of_type. lra.
Qed.
Lemma two_types_jacobian x : shares_jacobian two_types x 0 0 =
  - (share_of_type 0 (x 0%nat) * (1 - share_of_type 0 (x 0%nat)) + / 10 * (share_of_type 1 (x 0%nat) * (1 - share_of_type 1 (x 0%nat)))) / 2.
Proof.
  unfold shares_jacobian, jacobian_of, capital_lamda, capital_gamma. cbn [fI two_types fw sumn fm mH Nat.eqb].
  change (mk_market 1 0 (fun _ => 0%nat) false (fun _ => 0) 1) with (fm two_types).
  rewrite !two_types_probs, !two_types_derivatives. fold (share_of_type 0 (x 0%nat)). fold (share_of_type 1 (x 0%nat)).
  cbn [dislikes]. field.
Qed.

Lemma ln_4 : ln 4 = 2 * ln 2.
Proof. replace 4 with (2 * 2) by ring. rewrite ln_mult by lra. ring. Qed.
Lemma observed_shares : share_of_type 0 observed_price = 2 / 3 /\ share_of_type 1 observed_price = 4 / 5.
Proof.
  unfold share_of_type, dislikes. split.
  - replace (observed_utility - 1 * observed_price) with (ln 2) by (unfold observed_utility, observed_price; field).
    rewrite exp_ln by lra. field.
  - replace (observed_utility - / 10 * observed_price) with (ln 4) by (rewrite ln_4; unfold observed_utility, observed_price; field).
    rewrite exp_ln by lra. field.
Qed.

(** Costs that rationalize the observed price, and a better price. *)
Definition rationalizing (_ : nat) : R := observed_price - 825 / 134.
Definition better_price : R := observed_price + 20 * ln 2.

Lemma two_types_stationary : bertrand 1 (firm_ownership [1%Z]) rationalizing (shares_at two_types) (var0 two_types).
Proof.
  apply (bertrand_iff_markup two_types (firm_ownership [1%Z]) rationalizing (var0 two_types) two_types_valid (two_types_good _)).
  { intros [|j] Hj; [reflexivity|cbn in Hj; lia]. }
  intros j Hj. assert (j = O) by (cbn in Hj; lia). subst j. cbn [mJ fm two_types sumn].
  change (mk_full_market _ _ _ _ _ _ _ _ _ _ _ _) with two_types.
  change (firm_ownership [1%Z] 0 0) with 1. rewrite two_types_jacobian, two_types_shares.
  change (var0 two_types 0%nat) with observed_price. destruct observed_shares as [-> ->]. unfold rationalizing. lra.
Qed.

Lemma ln2_bound : 3 / 5 < ln 2.
Proof.
  replace (3 / 5) with (ln (exp (3 / 5))) by apply ln_exp. apply ln_increasing; [apply exp_pos|].
  destruct (Rlt_le_dec (exp (3 / 5)) 2) as [H|H]; [exact H|exfalso].
  set (y := exp (3 / 5)) in *.
  assert (E : y * y * (y * y) * y = exp 1 * exp 1 * exp 1). { unfold y. rewrite <- !exp_plus. f_equal. lra. }
  assert (U := exp_le_3). assert (P := exp_pos 1).
  assert (exp 1 * exp 1 <= 9) by nra. assert (exp 1 * exp 1 * exp 1 <= 27) by nra.
  assert (4 <= y * y) by nra. assert (16 <= y * y * (y * y)) by nra. assert (32 <= y * y * (y * y) * y) by nra. lra.
Qed.

Lemma profit_of_price p : firm_profit 1 [1%Z] rationalizing (shares_at two_types) 1 p =
  (p 0%nat - rationalizing 0) * ((share_of_type 0 (p 0%nat) + share_of_type 1 (p 0%nat)) / 2).
Proof. unfold firm_profit. cbn [sumn nth Z.eqb Pos.eqb]. rewrite two_types_shares. ring. Qed.

Lemma two_types_better :
  firm_profit 1 [1%Z] rationalizing (shares_at two_types) 1 (var0 two_types) <
  firm_profit 1 [1%Z] rationalizing (shares_at two_types) 1 (fun _ => better_price).
Proof.
  rewrite !profit_of_price. change (var0 two_types 0%nat) with observed_price. destruct observed_shares as [-> ->].
  assert (S1 : share_of_type 1 better_price = / 2).
  { unfold share_of_type, dislikes. replace (observed_utility - / 10 * better_price) with 0 by (unfold observed_utility, better_price, observed_price; field).
    rewrite exp_0. field. }
  assert (S0 : 0 < share_of_type 0 better_price).
  { unfold share_of_type. assert (P := exp_pos (observed_utility - dislikes 0 * better_price)).
    unfold Rdiv. apply Rmult_lt_0_compat; [exact P|apply Rinv_0_lt_compat; lra]. }
  rewrite S1. unfold rationalizing, better_price in *. assert (Q := ln2_bound).
  assert (K : 0 < (825 / 134 + 20 * ln 2) * share_of_type 0 (observed_price + 20 * ln 2)) by (apply Rmult_lt_0_compat; [lra|exact S0]).
  lra.
Qed.

(** Shares of more than a half are concave in utilities, so close to the observed price, profits are below a parabola. *)
Definition logistic (u : R) : R := exp u / (1 + exp u).
Lemma logistic_range u : 0 < logistic u < 1.
Proof.
  unfold logistic. assert (P := exp_pos u). split; [apply Rdiv_lt_0_compat; lra|].
  apply Rmult_lt_reg_r with (1 + exp u); [lra|]. unfold Rdiv. rewrite Rmult_assoc, Rinv_l by lra. lra.
Qed.
Lemma logistic_derivative u : derivable_pt_lim logistic u (logistic u * (1 - logistic u)).
Proof.
  assert (P := exp_pos u). unfold logistic at 1.
  replace (logistic u * (1 - logistic u)) with ((exp u * (1 + exp u) - (0 + exp u) * exp u) / Rsqr (1 + exp u)).
  2: { unfold logistic, Rsqr. field. lra. }
  apply (derivable_pt_lim_div exp (fun v => 1 + exp v) u (exp u) (0 + exp u)).
  - apply derivable_pt_lim_exp.
  - apply (derivable_pt_lim_plus (fct_cte 1) exp); [apply derivable_pt_lim_const|apply derivable_pt_lim_exp].
  - cbn. lra.
Qed.
Lemma logistic_increasing u v : u <= v -> logistic u <= logistic v.
Proof.
  intros H. assert (E : exp u <= exp v) by (destruct H as [H| ->]; [left; apply exp_increasing; exact H|right; reflexivity]).
  assert (P := exp_pos u). assert (Q := exp_pos v). unfold logistic.
  apply Rmult_le_reg_r with ((1 + exp u) * (1 + exp v)); [apply Rmult_lt_0_compat; lra|].
  replace (exp u / (1 + exp u) * ((1 + exp u) * (1 + exp v))) with (exp u * (1 + exp v)) by (field; lra).
  replace (exp v / (1 + exp v) * ((1 + exp u) * (1 + exp v))) with (exp v * (1 + exp u)) by (field; lra). lra.
Qed.
Lemma logistic_half u : 0 <= u -> / 2 <= logistic u.
Proof. intros H. replace (/ 2) with (logistic 0) by (unfold logistic; rewrite exp_0; field). apply logistic_increasing. exact H. Qed.
Lemma logistic_tangent u v : 0 <= u -> 0 <= v -> logistic v <= logistic u + logistic u * (1 - logistic u) * (v - u).
Proof.
  intros Hu Hv. destruct (Rtotal_order u v) as [L|[->|L]]; [|lra|].
  - destruct (MVT_cor2 logistic (fun t => logistic t * (1 - logistic t)) u v L) as [c [E [A B]]].
    { intros t _. apply logistic_derivative. }
    assert (I : logistic u <= logistic c) by (apply logistic_increasing; lra). assert (H := logistic_half u Hu).
    assert (logistic c * (1 - logistic c) <= logistic u * (1 - logistic u)) by nra. nra.
  - destruct (MVT_cor2 logistic (fun t => logistic t * (1 - logistic t)) v u L) as [c [E [A B]]].
    { intros t _. apply logistic_derivative. }
    assert (I : logistic c <= logistic u) by (apply logistic_increasing; lra). assert (H := logistic_half c ltac:(lra)).
    assert (logistic u * (1 - logistic u) <= logistic c * (1 - logistic c)) by nra. nra.
Qed.

Lemma two_types_local : local_nash 1 [1%Z] rationalizing (shares_at two_types) (var0 two_types).
Proof.
  exists (/ 2). split; [lra|]. intros f q D Near. specialize (Near O ltac:(lia)). change (var0 two_types 0%nat) with observed_price in Near.
  apply Rabs_def2 in Near. destruct (Z.eq_dec f 1) as [->|Nf].
  2: { unfold firm_profit. cbn [sumn nth]. rewrite (proj2 (Z.eqb_neq 1 f)) by congruence. lra. }
  rewrite !profit_of_price. change (var0 two_types 0%nat) with observed_price. set (h := q 0%nat - observed_price) in *.
  replace (q 0%nat) with (observed_price + h) by (unfold h; ring).
  assert (B := ln2_bound).
  assert (T0 := logistic_tangent (observed_utility - dislikes 0 * observed_price) (observed_utility - dislikes 0 * (observed_price + h))).
  assert (T1 := logistic_tangent (observed_utility - dislikes 1 * observed_price) (observed_utility - dislikes 1 * (observed_price + h))).
  change (logistic (observed_utility - dislikes 0 * observed_price)) with (share_of_type 0 observed_price) in T0.
  change (logistic (observed_utility - dislikes 0 * (observed_price + h))) with (share_of_type 0 (observed_price + h)) in T0.
  change (logistic (observed_utility - dislikes 1 * observed_price)) with (share_of_type 1 observed_price) in T1.
  change (logistic (observed_utility - dislikes 1 * (observed_price + h))) with (share_of_type 1 (observed_price + h)) in T1.
  destruct observed_shares as [E0 E1]. rewrite E0, E1 in *.
  assert (A0 : share_of_type 0 (observed_price + h) <= 2 / 3 - 2 / 9 * h).
  { assert (K := T0 ltac:(unfold observed_utility, observed_price, dislikes; lra) ltac:(unfold observed_utility, observed_price, dislikes; lra)).
    cbn [dislikes] in K. lra. }
  assert (A1 : share_of_type 1 (observed_price + h) <= 4 / 5 - 4 / 250 * h).
  { assert (K := T1 ltac:(unfold observed_utility, observed_price, dislikes; lra) ltac:(unfold observed_utility, observed_price, dislikes; lra)).
    cbn [dislikes] in K. lra. }
  unfold rationalizing. set (s0 := share_of_type 0 (observed_price + h)) in *. set (s1 := share_of_type 1 (observed_price + h)) in *.
  replace (observed_price + h - (observed_price - 825 / 134)) with (825 / 134 + h) by ring.
  replace (observed_price - (observed_price - 825 / 134)) with (825 / 134) by ring.
  apply Rle_trans with ((825 / 134 + h) * ((2 / 3 - 2 / 9 * h + (4 / 5 - 4 / 250 * h)) / 2)).
  - apply Rmult_le_compat_l; lra.
  - nra.
Qed.

Lemma two_types_dislike x i j : (j < 1)%nat -> utility_derivatives two_types false x i j < 0.
Proof. intros Hj. assert (j = O) by lia. subst j. rewrite two_types_derivatives. destruct i; cbn; lra. Qed.
