(** Lemmas about NestModel. *)
From Coq Require Import Reals Lra Lia List Bool Arith FunctionalExtensionality.
From Verif Require Import Base DemandSpec DemandModel DemandProofs DemandShares DemandElim DemandDeriv
  SupplyModel SupplySpec SupplyProofs DerivModel DerivProofs DerivCurve DerivParam MicroModel NestModel NestSpec.
From Verif Require MicroSpec MicroProofs.
Import ListNotations.
Local Open Scope R_scope.

(** ** Nested logit with any choice set along a curve *)
Section Curve.
  Variables (J H : nat) (grp : nat -> nat) (inc : nat -> bool) (out : bool).
  Variables (Vt rt : R -> nat -> R) (t : R) (du dr : nat -> R).
  Hypothesis Hgrp : forall j, (j < J)%nat -> (grp j < H)%nat.
  Hypothesis Du : forall k, (k < J)%nat -> derivable_pt_lim (fun y => Vt y k / (1 - rt y (grp k))) t (du k).
  Hypothesis Dr : forall h, (h < H)%nat -> derivable_pt_lim (fun y => rt y h) t (dr h).
  Notation W := (within_group J grp (rt t) inc (Vt t)).
  Notation S := (inclusive J grp (rt t) inc (Vt t)).
  Notation D := (group_weight J grp (rt t) inc (Vt t)).
  Notation M := (group_share J H grp (rt t) inc out (Vt t)).
  Definition mean_slope (h : nat) : R := sumn J (fun k => if Nat.eqb (grp k) h then W k * du k else 0).
  Definition log_slope (h : nat) : R := - dr h * ln (S h) + (1 - rt t h) * mean_slope h.

  Lemma inclusive_derive h :
    derivable_pt_lim (fun y => inclusive J grp (rt y) inc (Vt y) h) t
      (sumn J (fun k => if inc k && Nat.eqb (grp k) h then exp (Vt t k / (1 - rt t h)) * du k else 0)).
  Proof using Du.
    unfold inclusive. apply (dlim_sumn J (fun k y => if inc k && Nat.eqb (grp k) h then exp (Vt y k / (1 - rt y h)) else 0)).
    intros k Hk. destruct (Nat.eqb_spec (grp k) h) as [<-|]; [|rewrite andb_false_r; apply dlim_const].
    rewrite andb_true_r. destruct (inc k); [|apply dlim_const].
    apply (dlim_exp (fun y => Vt y k / (1 - rt y (grp k)))). apply Du, Hk.
  Qed.

  Lemma inclusive_mean h : existsb (fun k => inc k && Nat.eqb (grp k) h) (seq 0 J) = true ->
    sumn J (fun k => if inc k && Nat.eqb (grp k) h then exp (Vt t k / (1 - rt t h)) * du k else 0) = S h * mean_slope h.
  Proof using.
    intro E. assert (HS := inclusive_pos J grp (rt t) inc (Vt t) h E). unfold mean_slope. rewrite <- sumn_scal.
    apply sumn_ext. intros k _. unfold within_group. destruct (Nat.eqb_spec (grp k) h) as [Eg|]; [|rewrite andb_false_r; ring].
    rewrite andb_true_r. destruct (inc k); [|ring]. rewrite Eg. field. lra.
  Qed.

  Lemma has_group j : (j < J)%nat -> inc j = true -> existsb (fun k => inc k && Nat.eqb (grp k) (grp j)) (seq 0 J) = true.
  Proof using. intros Hj E. apply existsb_intro with j; [assumption|]. rewrite E, Nat.eqb_refl. reflexivity. Qed.

  Lemma within_derive j : (j < J)%nat ->
    derivable_pt_lim (fun y => within_group J grp (rt y) inc (Vt y) j) t (W j * (du j - mean_slope (grp j))).
  Proof using Du.
    intro Hj. unfold within_group at 1. destruct (inc j) eqn:E.
    - assert (HG := has_group j Hj E). assert (HS := inclusive_pos J grp (rt t) inc (Vt t) _ HG).
      eapply dlim_eq; [|apply (dlim_div (fun y => exp (Vt y j / (1 - rt y (grp j)))) (fun y => inclusive J grp (rt y) inc (Vt y) (grp j)))].
      2:{ apply (dlim_exp (fun y => Vt y j / (1 - rt y (grp j)))). apply Du, Hj. }
      2:{ apply inclusive_derive. }
      2:{ lra. }
      rewrite inclusive_mean by assumption. unfold within_group. rewrite E. field. lra.
    - eapply dlim_eq; [|apply dlim_const]. unfold within_group. rewrite E. ring.
  Qed.

  Lemma weight_derive h : (h < H)%nat ->
    derivable_pt_lim (fun y => group_weight J grp (rt y) inc (Vt y) h) t (D h * log_slope h).
  Proof using Du Dr.
    intro Hh. unfold group_weight at 1.
    destruct (existsb (fun k => inc k && Nat.eqb (grp k) h) (seq 0 J)) eqn:E.
    - assert (HS := inclusive_pos J grp (rt t) inc (Vt t) _ E). unfold Rpower.
      eapply dlim_eq; [|apply (dlim_exp (fun y => (1 - rt y h) * ln (inclusive J grp (rt y) inc (Vt y) h)));
        apply (dlim_mult (fun y => 1 - rt y h) (fun y => ln (inclusive J grp (rt y) inc (Vt y) h)));
        [apply (dlim_minus (fun _ => 1)); [apply dlim_const|apply Dr, Hh]
        |apply (dlim_ln (fun y => inclusive J grp (rt y) inc (Vt y) h)); [apply inclusive_derive|exact HS]]].
      rewrite inclusive_mean by assumption. unfold group_weight. rewrite E. unfold Rpower, log_slope. field. lra.
    - eapply dlim_eq; [|apply dlim_const]. unfold group_weight. rewrite E. ring.
  Qed.

  Lemma share_derive h : (h < H)%nat -> indR out + sumn H D <> 0 ->
    derivable_pt_lim (fun y => group_share J H grp (rt y) inc out (Vt y) h) t
      (M h * (log_slope h - sumn H (fun g => M g * log_slope g))).
  Proof using Du Dr.
    intros Hh N. unfold group_share at 1.
    eapply dlim_eq; [|apply (dlim_div (fun y => group_weight J grp (rt y) inc (Vt y) h)
        (fun y => indR out + sumn H (group_weight J grp (rt y) inc (Vt y))));
      [apply weight_derive, Hh|apply (dlim_plus (fun _ => indR out)); [apply dlim_const|
        apply (dlim_sumn H (fun g y => group_weight J grp (rt y) inc (Vt y) g)); intros g Hg; apply weight_derive, Hg]|exact N]].
    assert (ES : sumn H (fun g => M g * log_slope g) = sumn H (fun g => D g * log_slope g) / (indR out + sumn H D)).
    { unfold Rdiv. rewrite <- sumn_scal_r. apply sumn_ext. intros g Hg. unfold group_share. field. exact N. }
    rewrite ES. unfold group_share. change (fun k : nat => D k) with D. field. exact N.
  Qed.

  Lemma nested_derive j : (j < J)%nat -> indR out + sumn H D <> 0 ->
    derivable_pt_lim (fun y => nested J H grp (rt y) inc out (Vt y) j) t
      (W j * (du j - mean_slope (grp j)) * M (grp j)
       + W j * (M (grp j) * (log_slope (grp j) - sumn H (fun g => M g * log_slope g)))).
  Proof using Hgrp Du Dr.
    intros Hj N. unfold nested.
    apply (dlim_mult (fun y => within_group J grp (rt y) inc (Vt y) j) (fun y => group_share J H grp (rt y) inc out (Vt y) (grp j)));
      [apply within_derive, Hj|apply share_derive; [apply Hgrp, Hj|exact N]].
  Qed.
End Curve.

(** ** What the code computes, for any choice set *)

(** Contributions of mean utilities. *)
Lemma tangent_by_xi m P C d j : valid_market m -> (j < mJ m)%nat ->
  (mH m <> O -> forall k, (k < mJ m)%nat -> P k = C k * gsum m P (gid m k)) ->
  sumn (mJ m) (fun l => probabilities_by_xi m P C l j * d l) = fst (utility_tangent m P C d) j.
Proof.
  intros V Hj HP. unfold probabilities_by_xi, utility_tangent. assert (E0 := vm_eps _ V).
  destruct (Nat.eqb_spec (mH m) 0) as [HH|HH]; cbn [fst].
  - rewrite eps_div.
    rewrite (sumn_ext (mJ m) _ (fun l => (- P j / eps_scale m) * (P l * d l) + (if Nat.eqb l j then P j * d l / eps_scale m else 0))).
    2:{ intros l _. rewrite eps_div, (Nat.eqb_sym j l). destruct (Nat.eqb l j); field; lra. }
    rewrite sumn_plus, sumn_scal, (sumn_delta (mJ m) j (fun l => P j * d l / eps_scale m)) by assumption. field. lra.
  - assert (E1 := vm_eps_nest _ V HH). assert (Hr := rho_lt _ _ V HH Hj).
    assert (EA : forall h, gsum m P h * gsum m (fun k => C k * d k) h = gsum m (fun k => P k * d k) h).
    { intro h. unfold gsum at 2 3. rewrite <- sumn_scal. apply sumn_ext. intros k Hk.
      destruct (Nat.eqb_spec (gid m k) h) as [<-|]; [|ring]. rewrite (HP HH k Hk). ring. }
    rewrite (sumn_ext (mH m) _ (gsum m (fun k => P k * d k))) by (intros; apply EA).
    rewrite gsum_total by assumption.
    rewrite (sumn_ext (mJ m) _ (fun l => - P j * (P l * d l) + ((if Nat.eqb l j then P j * d l + rho m j / (1 - rho m j) * P j * d l else 0)
       + (- C j * (rho m j / (1 - rho m j))) * (if Nat.eqb (gid m l) (gid m j) then P l * d l else 0)))).
    2:{ intros l Hl. rewrite eps_div, E1. unfold membership. rewrite (Nat.eqb_sym j l).
        destruct (Nat.eqb_spec l j) as [->|Hne].
        - rewrite Nat.eqb_refl. field. lra.
        - destruct (Nat.eqb_spec (gid m l) (gid m j)) as [Eg|]; [|assert (Hl' := rho_lt _ _ V HH Hl); field; lra].
          assert (Er : rho m l = rho m j) by (unfold rho; rewrite Eg; reflexivity). rewrite Er. field. lra. }
    rewrite !sumn_plus, !sumn_scal.
    rewrite (sumn_delta (mJ m) j (fun l => P j * d l + rho m j / (1 - rho m j) * P j * d l)) by assumption.
    fold (gsum m (fun k => P k * d k) (gid m j)). rewrite <- EA.
    rewrite (HP HH j Hj). field. lra.
Qed.

Lemma cond_tangent_by_xi m P C d j : valid_market m -> mH m <> O -> (j < mJ m)%nat ->
  sumn (mJ m) (fun l => conditionals_by_xi m C l j * d l) = snd (utility_tangent m P C d) j.
Proof.
  intros V HH Hj. unfold conditionals_by_xi, utility_tangent. assert (Hr := rho_lt _ _ V HH Hj).
  destruct (Nat.eqb_spec (mH m) 0) as [|_]; [contradiction|]. cbn [snd].
  rewrite (sumn_ext (mJ m) _ (fun l => (- C j / (1 - rho m j)) * (if Nat.eqb (gid m l) (gid m j) then C l * d l else 0)
     + (if Nat.eqb l j then C j * d l / (1 - rho m j) else 0))).
  2:{ intros l Hl. unfold membership. rewrite (Nat.eqb_sym j l). assert (Hl' := rho_lt _ _ V HH Hl).
      destruct (Nat.eqb_spec l j) as [->|Hne]; [rewrite Nat.eqb_refl; field; lra|].
      destruct (Nat.eqb_spec (gid m l) (gid m j)) as [Eg|]; [|field; lra].
      assert (Er : rho m l = rho m j) by (unfold rho; rewrite Eg; reflexivity). rewrite Er. field. lra. }
  rewrite sumn_plus, sumn_scal, (sumn_delta (mJ m) j (fun l => C j * d l / (1 - rho m j))) by assumption.
  fold (gsum m (fun k => C k * d k) (gid m j)). field. lra.
Qed.

Lemma utility_tangent_plus m P C a b j : valid_market m -> (j < mJ m)%nat ->
  fst (utility_tangent m P C (fun k => a k + b k)) j = fst (utility_tangent m P C a) j + fst (utility_tangent m P C b) j /\
  snd (utility_tangent m P C (fun k => a k + b k)) j = snd (utility_tangent m P C a) j + snd (utility_tangent m P C b) j.
Proof.
  intros V Hj. unfold utility_tangent. assert (E0 := vm_eps _ V).
  destruct (Nat.eqb_spec (mH m) 0) as [HH|HH]; cbn [fst snd].
  - split; [|ring]. rewrite !eps_div.
    rewrite (sumn_ext (mJ m) (fun k => P k * (a k + b k)) (fun k => P k * a k + P k * b k)) by (intros; ring).
    rewrite sumn_plus. field. lra.
  - assert (Hr := rho_lt _ _ V HH Hj).
    assert (EA : forall h, gsum m (fun k => C k * (a k + b k)) h = gsum m (fun k => C k * a k) h + gsum m (fun k => C k * b k) h).
    { intro h. unfold gsum. rewrite <- sumn_plus. apply sumn_ext. intros k _. destruct (Nat.eqb _ _); ring. }
    rewrite !EA.
    rewrite (sumn_ext (mH m) (fun h => gsum m P h * gsum m (fun k => C k * (a k + b k)) h)
      (fun h => gsum m P h * gsum m (fun k => C k * a k) h + gsum m P h * gsum m (fun k => C k * b k) h)) by (intros; rewrite EA; ring).
    rewrite sumn_plus. split; field; lra.
Qed.

Section Choice.
  Variables (m : market) (out : bool) (avail : option (nat -> bool)) (el : option nat) (ids : option (nat -> bool)).
  Hypothesis V : valid_market m.
  Hypothesis NE : nonempty (mJ m) out avail el ids.
  Notation c := (choice_of out avail el ids).
  Notation inc := (remaining avail el ids).

  Lemma choice_nested delta mu j : mH m <> O -> (j < mJ m)%nat ->
    choice_probabilities m c delta mu j = nested (mJ m) (mH m) (gid m) (grho m) inc out (utility m delta mu) j.
  Proof using V.
    intros HH Hj. destruct (probabilities_spec m true out avail el ids delta mu V) as [_ B]. destruct (B HH) as [B1 _].
    exact (B1 j Hj).
  Qed.
  Lemma choice_within delta mu j : mH m <> O -> (j < mJ m)%nat ->
    choice_conditionals m c delta mu j = within_group (mJ m) (gid m) (grho m) inc (utility m delta mu) j.
  Proof using V.
    intros HH Hj. destruct (probabilities_spec m true out avail el ids delta mu V) as [_ B]. destruct (B HH) as [_ [con [E Hc]]].
    unfold choice_conditionals. change (choice_of out avail el ids) with (choice_with out avail el ids). rewrite E. exact (Hc j Hj).
  Qed.
  Lemma choice_plain delta mu j : mH m = O -> (j < mJ m)%nat ->
    choice_probabilities m c delta mu j = logit (mJ m) inc out (utility m delta mu) j.
  Proof using V.
    intros HH Hj. destruct (probabilities_spec m true out avail el ids delta mu V) as [A _]. destruct (A HH) as [A1 _].
    exact (A1 j Hj).
  Qed.
  Lemma empty_share H W h : existsb (fun k => inc k && Nat.eqb (gid m k) h) (seq 0 (mJ m)) = false ->
    group_share (mJ m) H (gid m) (grho m) inc out W h = 0.
  Proof using. intro E. unfold group_share, group_weight at 1. rewrite E. unfold Rdiv. ring. Qed.
  Lemma choice_gsum delta mu h : mH m <> O -> (h < mH m)%nat ->
    gsum m (choice_probabilities m c delta mu) h
    = group_share (mJ m) (mH m) (gid m) (grho m) inc out (utility m delta mu) h.
  Proof using V.
    intros HH Hh. unfold gsum.
    transitivity (sumn (mJ m) (fun j => if Nat.eqb (gid m j) h then within_group (mJ m) (gid m) (grho m) inc (utility m delta mu) j else 0)
      * group_share (mJ m) (mH m) (gid m) (grho m) inc out (utility m delta mu) h).
    - rewrite <- sumn_scal_r. apply sumn_ext. intros j Hj. destruct (Nat.eqb_spec (gid m j) h) as [<-|]; [|ring].
      rewrite choice_nested by assumption. reflexivity.
    - rewrite within_group_total. destruct (existsb _ _) eqn:E; [ring|]. rewrite empty_share by exact E. ring.
  Qed.
  Lemma choice_factor delta mu : mH m <> O -> forall k, (k < mJ m)%nat ->
    choice_probabilities m c delta mu k
    = choice_conditionals m c delta mu k * gsum m (choice_probabilities m c delta mu) (gid m k).
  Proof using V.
    intros HH k Hk. rewrite choice_gsum by (try assumption; apply (vm_gid _ V HH); assumption).
    rewrite choice_within, choice_nested by assumption. reflexivity.
  Qed.

  Lemma choice_total_pos r W : mH m <> O -> indR out + sumn (mH m) (group_weight (mJ m) (gid m) r inc W) <> 0.
  Proof using V NE.
    intro HH. destruct NE as [->|[k [Hk E]]].
    - assert (H0 := weights_nonneg (mJ m) (mH m) (gid m) r inc W). cbn. lra.
    - apply Rgt_not_eq. assert (H0 := indR_nonneg out). assert (0 < sumn (mH m) (group_weight (mJ m) (gid m) r inc W)); [|lra].
      apply sumn_pos; [intros; apply group_weight_nonneg|]. exists (gid m k). split; [apply (vm_gid _ V HH), Hk|].
      rewrite group_weight_inclusive; [apply Rpower_pos|]. apply existsb_intro with k; [exact Hk|]. cbv beta. rewrite E, Nat.eqb_refl. reflexivity.
  Qed.
  Lemma plain_total_pos W : indR out + sumn (mJ m) (fun k => if inc k then exp (W k) else 0) <> 0.
  Proof using NE.
    assert (H0 := exp_sum_nonneg (mJ m) inc W). destruct NE as [->|[k [Hk E]]]; [cbn; lra|].
    apply Rgt_not_eq. assert (H1 := indR_nonneg out). assert (0 < sumn (mJ m) (fun k => if inc k then exp (W k) else 0)); [|lra].
    apply sumn_pos; [intros i _; destruct (inc i); [left; apply exp_pos|lra]|]. exists k. split; [exact Hk|]. rewrite E. apply exp_pos.
  Qed.

  Variables (deltap mup : R -> nat -> R) (t : R) (dd dmu : nat -> R).
  Hypothesis Dd : forall k, (k < mJ m)%nat -> derivable_pt_lim (fun y => deltap y k) t (dd k).
  Hypothesis Dm : forall k, (k < mJ m)%nat -> derivable_pt_lim (fun y => mup y k) t (dmu k).
  Notation P := (choice_probabilities m c (deltap t) (mup t)).
  Notation C := (choice_conditionals m c (deltap t) (mup t)).

  Lemma utility_moves k : (k < mJ m)%nat ->
    derivable_pt_lim (fun y => utility m (deltap y) (mup y) k) t ((dmu k + dd k) / eps_scale m).
  Proof using Dd Dm.
    intro Hk. unfold utility, Rdiv. eapply dlim_eq; [|apply (dlim_scal_r (/ eps_scale m) (fun y => deltap y k + mup y k)), dlim_plus; [apply Dd, Hk|apply Dm, Hk]]. ring.
  Qed.

  Lemma within_moves j : mH m <> O -> (j < mJ m)%nat ->
    derivable_pt_lim (fun y => within_group (mJ m) (gid m) (grho m) inc (utility m (deltap y) (mup y)) j) t
      (snd (utility_tangent m P C (fun k => dmu k + dd k)) j).
  Proof using V Dd Dm.
    intros HH Hj. assert (E1 := vm_eps_nest _ V HH).
    eapply dlim_eq; [|apply (within_derive (mJ m) (gid m) inc (fun y => utility m (deltap y) (mup y)) (fun _ => grho m) t (fun k => (dmu k + dd k) / (1 - rho m k)))].
    2:{ intros k Hk. eapply dlim_eq; [|apply (dlim_scal_r (/ (1 - grho m (gid m k))) (fun y => utility m (deltap y) (mup y) k)), utility_moves, Hk].
        rewrite E1. unfold rho. assert (Hr := rho_lt _ _ V HH Hk). unfold rho in Hr. field. lra. }
    2:{ exact Hj. }
    unfold utility_tangent. destruct (Nat.eqb_spec (mH m) 0) as [|_]; [contradiction|]. cbn [snd].
    rewrite choice_within by assumption. assert (Hr := rho_lt _ _ V HH Hj).
    assert (EM : mean_slope (mJ m) (gid m) inc (fun y => utility m (deltap y) (mup y)) (fun _ => grho m) t (fun k => (dmu k + dd k) / (1 - rho m k)) (gid m j)
      = gsum m (fun k => C k * (dmu k + dd k)) (gid m j) / (1 - rho m j)).
    { unfold mean_slope, gsum, Rdiv. rewrite <- sumn_scal_r. apply sumn_ext. intros k Hk. destruct (Nat.eqb_spec (gid m k) (gid m j)) as [Eg|]; [|ring].
      rewrite choice_within by assumption. unfold rho. rewrite Eg. ring. }
    rewrite EM. field. lra.
  Qed.

  Lemma choice_cond_moves j : mH m <> O -> (j < mJ m)%nat ->
    derivable_pt_lim (fun y => choice_conditionals m c (deltap y) (mup y) j) t
      (total_cond_tangent m C (snd (utility_tangent m P C dmu)) dd j).
  Proof using V Dd Dm.
    intros HH Hj. unfold total_cond_tangent. rewrite (cond_tangent_by_xi m P C dd j V HH Hj).
    destruct (utility_tangent_plus m P C dmu dd j V Hj) as [_ <-].
    apply dlim_ext with (fun y => within_group (mJ m) (gid m) (grho m) inc (utility m (deltap y) (mup y)) j);
      [intro y; symmetry; apply choice_within; assumption|]. apply within_moves; assumption.
  Qed.

  Lemma logit_moves j : mH m = O -> (j < mJ m)%nat ->
    derivable_pt_lim (fun y => logit (mJ m) inc out (utility m (deltap y) (mup y)) j) t
      (fst (utility_tangent m P C (fun k => dmu k + dd k)) j).
  Proof using V NE Dd Dm.
    intros HH Hj. assert (E0 := vm_eps _ V).
    set (v := fun k => (dmu k + dd k) / eps_scale m).
    set (W := utility m (deltap t) (mup t)).
    assert (N := plain_total_pos W). set (T := indR out + sumn (mJ m) (fun k => if inc k then exp (W k) else 0)) in *.
    unfold utility_tangent. rewrite HH. cbn [Nat.eqb fst]. rewrite eps_div.
    assert (EP : forall k, (k < mJ m)%nat -> P k = (if inc k then exp (W k) else 0) / T).
    { intros k Hk. rewrite choice_plain by assumption. unfold logit. fold W. fold T. destruct (inc k); [reflexivity|unfold Rdiv; ring]. }
    assert (ES : sumn (mJ m) (fun k => P k * (dmu k + dd k)) = eps_scale m * (sumn (mJ m) (fun k => if inc k then exp (W k) * v k else 0) / T)).
    { unfold Rdiv at 1. rewrite <- sumn_scal_r, <- sumn_scal. apply sumn_ext. intros k Hk. rewrite (EP k Hk). unfold v. destruct (inc k); field; lra. }
    rewrite ES, (EP j Hj). unfold logit. destruct (inc j) eqn:Ej.
    - eapply dlim_eq; [|apply (dlim_div (fun y => exp (utility m (deltap y) (mup y) j))
        (fun y => indR out + sumn (mJ m) (fun k => if inc k then exp (utility m (deltap y) (mup y) k) else 0)));
        [apply (dlim_exp (fun y => utility m (deltap y) (mup y) j)), utility_moves, Hj
        |apply (dlim_plus (fun _ => indR out)); [apply dlim_const|
          apply (dlim_sumn (mJ m) (fun k y => if inc k then exp (utility m (deltap y) (mup y) k) else 0) t (fun k => if inc k then exp (W k) * v k else 0))]
        |exact N]].
      + fold W. fold T. fold (v j). unfold v at 1. field. split; [exact N|lra].
      + intros k Hk. destruct (inc k); [|apply dlim_const]. apply (dlim_exp (fun y => utility m (deltap y) (mup y) k)), utility_moves, Hk.
    - eapply dlim_eq; [|apply dlim_const]. unfold Rdiv. ring.
  Qed.

  Lemma nested_moves j : mH m <> O -> (j < mJ m)%nat ->
    derivable_pt_lim (fun y => nested (mJ m) (mH m) (gid m) (grho m) inc out (utility m (deltap y) (mup y)) j) t
      (fst (utility_tangent m P C (fun k => dmu k + dd k)) j).
  Proof using V NE Dd Dm.
    intros HH Hj. assert (E1 := vm_eps_nest _ V HH).
    set (v := fun k => dmu k + dd k).
    set (Vt := fun y => utility m (deltap y) (mup y)).
    set (du := fun k => v k / (1 - rho m k)).
    assert (EM : forall h, (h < mH m)%nat -> mean_slope (mJ m) (gid m) inc Vt (fun _ => grho m) t du h
      = gsum m (fun k => C k * v k) h / (1 - grho m h)).
    { intros h Hh. unfold mean_slope, gsum, Rdiv. rewrite <- sumn_scal_r. apply sumn_ext. intros k Hk. destruct (Nat.eqb_spec (gid m k) h) as [Eg|]; [|ring].
      rewrite choice_within by assumption. unfold du, rho. rewrite Eg. unfold Rdiv. fold (Vt t). ring. }
    assert (EL : forall h, (h < mH m)%nat -> log_slope (mJ m) (gid m) inc Vt (fun _ => grho m) t du (fun _ => 0) h = gsum m (fun k => C k * v k) h).
    { intros h Hh. unfold log_slope. rewrite EM by exact Hh. assert (Hr := vm_rho _ V HH h Hh). field. lra. }
    eapply dlim_eq; [|apply (nested_derive (mJ m) (mH m) (gid m) inc out Vt (fun _ => grho m) t du (fun _ => 0))].
    - assert (Hg := vm_gid _ V HH j Hj). rewrite EM, EL by exact Hg.
      rewrite (sumn_ext (mH m) _ (fun h => gsum m P h * gsum m (fun k => C k * v k) h)).
      2:{ intros h Hh. rewrite EL, choice_gsum by assumption. reflexivity. }
      unfold Vt. rewrite <- choice_gsum, <- choice_within by assumption.
      unfold utility_tangent. destruct (Nat.eqb_spec (mH m) 0) as [|_]; [contradiction|]. cbn [fst].
      unfold du, rho. assert (Hr := vm_rho _ V HH _ Hg). field. lra.
    - intros k Hk. apply (vm_gid _ V HH), Hk.
    - intros k Hk. eapply dlim_eq; [|apply (dlim_scal_r (/ (1 - grho m (gid m k))) (fun y => utility m (deltap y) (mup y) k)), utility_moves, Hk].
      rewrite E1. unfold du, v, rho. assert (Hr := rho_lt _ _ V HH Hk). unfold rho in Hr. field. lra.
    - intros; apply dlim_const.
    - exact Hj.
    - apply choice_total_pos, HH.
  Qed.

  Lemma choice_prob_moves j : (j < mJ m)%nat ->
    derivable_pt_lim (fun y => choice_probabilities m c (deltap y) (mup y) j) t
      (total_tangent m P C (fst (utility_tangent m P C dmu)) dd j).
  Proof using V NE Dd Dm.
    intro Hj. unfold total_tangent. rewrite tangent_by_xi by (try assumption; apply choice_factor).
    destruct (utility_tangent_plus m P C dmu dd j V Hj) as [<- _].
    destruct (Nat.eq_dec (mH m) 0) as [HH|HH].
    - apply dlim_ext with (fun y => logit (mJ m) inc out (utility m (deltap y) (mup y)) j);
        [intro y; symmetry; apply choice_plain; assumption|]. apply logit_moves; assumption.
    - apply dlim_ext with (fun y => nested (mJ m) (mH m) (gid m) (grho m) inc out (utility m (deltap y) (mup y)) j);
        [intro y; symmetry; apply choice_nested; assumption|]. apply nested_moves; assumption.
  Qed.
End Choice.

Lemma not_eliminated avail el ids out j :
  remaining avail el ids j = match avail with Some b => b j | None => true end && negb (is_eliminated (choice_of out avail el ids) j).
Proof.
  unfold remaining, is_eliminated, choice_of. cbn [c_eliminate c_eliminate_ids].
  destruct avail as [b|], el as [k|], ids as [mask|]; cbn [orb]; try destruct (b j); try destruct (Nat.eqb j k); try destruct (mask j); reflexivity.
Qed.

(** Nesting parameters. *)
Section Nesting.
  Variables (m : market) (out : bool) (avail : option (nat -> bool)) (el : option nat) (ids : option (nat -> bool)).
  Hypothesis V : valid_market m.
  Hypothesis HH : mH m <> O.
  Hypothesis NE : nonempty (mJ m) out avail el ids.
  Variables (flag : nat -> bool) (t : R).
  Hypothesis Hflag : forall h, flag h = true -> grho m h = t.
  Hypothesis Ht : t < 1.
  Hypothesis Hall : rho_multi m = false -> forall h, (h < mH m)%nat -> flag h = true.
  Variables (deltap : R -> nat -> R) (mu dd : nat -> R).
  Hypothesis Dd : forall k, (k < mJ m)%nat -> derivable_pt_lim (fun y => deltap y k) t (dd k).
  Notation c := (choice_of out avail el ids).
  Notation inc := (remaining avail el ids).
  Notation P := (choice_probabilities m c (deltap t) mu).
  Notation C := (choice_conditionals m c (deltap t) mu).
  Notation assoc := (fun h => indR (flag h)).
  Notation rt := (fun y h => if flag h then y else grho m h).
  Notation Vt := (fun y k => deltap y k + mu k).
  Definition scaled_at (k : nat) : R := (deltap t k + mu k) / (1 - rho m k).
  Definition du_at (k : nat) : R := dd k / (1 - rho m k) + indR (flag (gid m k)) * (scaled_at k / (1 - rho m k)).

  Lemma one_eps : eps_scale m = 1. Proof using V HH. exact (vm_eps_nest _ V HH). Qed.
  Lemma rt_at h : rt t h = grho m h.
  Proof using Hflag. cbv beta. destruct (flag h) eqn:E; [symmetry; apply Hflag, E|reflexivity]. Qed.
  Lemma utility_at_one y k : utility m (deltap y) mu k = Vt y k.
  Proof using V HH. unfold utility. rewrite one_eps. field. Qed.

  Lemma rt_all : (fun h => if flag h then t else grho m h) = grho m.
  Proof using Hflag. apply functional_extensionality. exact rt_at. Qed.
  Lemma Vt_all : (fun k => deltap t k + mu k) = utility m (deltap t) mu.
  Proof using V HH. apply functional_extensionality. intro k. symmetry. apply utility_at_one. Qed.

  Lemma within_at j : (j < mJ m)%nat -> within_group (mJ m) (gid m) (rt t) inc (Vt t) j = C j.
  Proof using V HH Hflag. intro Hj. cbv beta. rewrite rt_all, Vt_all, choice_within by assumption. reflexivity. Qed.
  Lemma weight_at h : group_weight (mJ m) (gid m) (rt t) inc (Vt t) h = group_weight (mJ m) (gid m) (grho m) inc (utility m (deltap t) mu) h.
  Proof using V HH Hflag. cbv beta. rewrite rt_all, Vt_all. reflexivity. Qed.
  Lemma share_at h : (h < mH m)%nat -> group_share (mJ m) (mH m) (gid m) (rt t) inc out (Vt t) h = gsum m P h.
  Proof using V HH Hflag. intro Hh. cbv beta. rewrite rt_all, Vt_all, choice_gsum by assumption. reflexivity. Qed.
  Lemma du_is k : (k < mJ m)%nat -> derivable_pt_lim (fun y => Vt y k / (1 - rt y (gid m k))) t (du_at k).
  Proof using V HH Hflag Dd.
    intro Hk. assert (Hr := rho_lt _ _ V HH Hk). assert (E := rt_at (gid m k)). fold (rho m k) in E.
    eapply dlim_eq; [|apply (dlim_div (fun y => Vt y k) (fun y => 1 - rt y (gid m k)) t (dd k) (- indR (flag (gid m k))))].
    - cbv beta in E |- *. rewrite E. unfold du_at, scaled_at. field. lra.
    - eapply dlim_eq; [|apply (dlim_plus (fun y => deltap y k)); [apply Dd, Hk|apply dlim_const]]. ring.
    - destruct (flag (gid m k)); cbn.
      + eapply dlim_eq; [|apply (dlim_minus (fun _ => 1)); [apply dlim_const|apply dlim_id]]. ring.
      + eapply dlim_eq; [|apply dlim_const]. ring.
    - cbv beta in E |- *. rewrite E. lra.
  Qed.
  Lemma dr_is h : derivable_pt_lim (fun y => rt y h) t (indR (flag h)).
  Proof using. cbv beta. destruct (flag h); cbn; [apply dlim_id|apply dlim_const]. Qed.

  Notation MS := (mean_slope (mJ m) (gid m) inc (fun y k => deltap y k + mu k) (fun y h => if flag h then y else grho m h) t du_at).
  Notation LS := (log_slope (mJ m) (gid m) inc (fun y k => deltap y k + mu k) (fun y h => if flag h then y else grho m h) t du_at (fun h => indR (flag h))).
  Definition A_at (k : nat) : R := C k * scaled_at k / (1 - rho m k).
  Lemma mean_at h : (h < mH m)%nat -> MS h = gsum m (fun k => C k * dd k) h / (1 - grho m h) + indR (flag h) * gsum m A_at h.
  Proof using V HH Hflag.
    intro Hh. unfold mean_slope, gsum, Rdiv. rewrite <- sumn_scal_r, <- sumn_scal, <- sumn_plus. apply sumn_ext. intros k Hk.
    destruct (Nat.eqb_spec (gid m k) h) as [<-|]; [|ring]. rewrite within_at by exact Hk. unfold A_at, du_at, rho. unfold Rdiv. ring.
  Qed.

  Definition reduction_at : R := Rmax (maxn (pred (mJ m)) (fun j => if is_eliminated c j then 0 else scaled_at j)) 0.
  Definition exps_at (j : nat) : R := (if is_eliminated c j then 0 else exp (scaled_at j - reduction_at))
    * match c_availability c with Some a => a j | None => 1 end.
  Lemma exps_inclusive h : gsum m exps_at h * exp reduction_at = inclusive (mJ m) (gid m) (rt t) inc (Vt t) h.
  Proof using V HH Hflag.
    clear NE. unfold gsum. rewrite <- sumn_scal_r. unfold inclusive. apply sumn_ext. intros k Hk. rewrite (not_eliminated avail el ids out k).
    destruct (Nat.eqb_spec (gid m k) h) as [<-|]; [|rewrite andb_false_r; ring]. rewrite andb_true_r, rt_at. unfold exps_at.
    destruct (is_eliminated c k); [rewrite andb_false_r; ring|]. rewrite andb_true_r. unfold choice_of. cbn [c_availability].
    replace ((deltap t k + mu k) / (1 - grho m (gid m k))) with (scaled_at k - reduction_at + reduction_at) by (unfold scaled_at, rho; ring).
    rewrite exp_plus. destruct avail as [b|]; cbn [option_map]; [destruct (b k); cbn [indR]; ring|ring].
  Qed.
  Definition B_at (h : nat) : R :=
    if Rlt_dec 0 (gsum m exps_at h) then gsum m P h * (gsum m A_at h * (1 - grho m h) - (ln (gsum m exps_at h) + reduction_at)) else 0.
  Lemma log_at h : (h < mH m)%nat -> gsum m P h * LS h = gsum m P h * gsum m (fun k => C k * dd k) h + indR (flag h) * B_at h.
  Proof using V HH Hflag.
    intro Hh. unfold log_slope. rewrite mean_at by exact Hh. assert (Hr := vm_rho _ V HH h Hh). rewrite rt_at, <- exps_inclusive.
    unfold B_at. destruct (Rlt_dec 0 (gsum m exps_at h)) as [Hp|Hn].
    - rewrite ln_mult, ln_exp by (try exact Hp; apply exp_pos). field. lra.
    - assert (Z : gsum m P h = 0); [|rewrite Z; ring]. rewrite choice_gsum by assumption. apply empty_share.
      destruct (existsb _ _) eqn:E; [|reflexivity]. exfalso. apply Hn.
      assert (HI := inclusive_pos (mJ m) (gid m) (rt t) inc (Vt t) h E). rewrite <- exps_inclusive in HI.
      assert (He := exp_pos reduction_at). apply Rmult_lt_reg_r with (exp reduction_at); [exact He|]. rewrite Rmult_0_l. exact HI.
  Qed.

  Lemma nesting_within j : (j < mJ m)%nat ->
    derivable_pt_lim (fun y => within_group (mJ m) (gid m) (rt y) inc (Vt y) j) t
      (total_cond_tangent m C (snd (choice_rho_tangent m c P C (deltap t) mu assoc)) dd j).
  Proof using V HH Hflag Dd.
    intro Hj. unfold total_cond_tangent. rewrite (cond_tangent_by_xi m P C dd j V HH Hj).
    eapply dlim_eq; [|apply (within_derive (mJ m) (gid m) inc (fun y k => deltap y k + mu k) (fun y h => if flag h then y else grho m h) t du_at du_is j Hj)].
    rewrite within_at by exact Hj. rewrite mean_at by (apply (vm_gid _ V HH), Hj).
    unfold choice_rho_tangent, utility_tangent. destruct (Nat.eqb_spec (mH m) 0) as [|_]; [contradiction|]. cbn [snd].
    change (gsum m (fun j => C j * ((deltap t j + mu j) / (1 - rho m j)) / (1 - rho m j))) with (gsum m A_at).
    fold (scaled_at j). unfold du_at. fold (rho m j). assert (Hr := rho_lt _ _ V HH Hj). field. lra.
  Qed.

  Lemma nesting_nested j : (j < mJ m)%nat ->
    derivable_pt_lim (fun y => nested (mJ m) (mH m) (gid m) (rt y) inc out (Vt y) j) t
      (total_tangent m P C (fst (choice_rho_tangent m c P C (deltap t) mu assoc)) dd j).
  Proof using V HH NE Hflag Dd.
    intro Hj. unfold total_tangent. rewrite tangent_by_xi by (try assumption; apply choice_factor; assumption).
    eapply dlim_eq; [|apply (nested_derive (mJ m) (mH m) (gid m) inc out (fun y k => deltap y k + mu k) (fun y h => if flag h then y else grho m h)
      t du_at (fun h => indR (flag h)) (vm_gid _ V HH) du_is (fun h _ => dr_is h) j Hj)].
    - assert (Hg := vm_gid _ V HH j Hj).
      rewrite within_at, share_at, mean_at by assumption.
      rewrite (sumn_ext (mH m) _ (fun h => gsum m P h * gsum m (fun k => C k * dd k) h + indR (flag h) * B_at h)).
      2:{ intros h Hh. rewrite share_at by exact Hh. apply log_at, Hh. }
      rewrite sumn_plus.
      assert (L := log_at (gid m j) Hg). set (ls := LS (gid m j)) in L |- *.
      unfold choice_rho_tangent, utility_tangent. destruct (Nat.eqb_spec (mH m) 0) as [|_]; [contradiction|]. cbn [fst].
      change (gsum m (fun j => C j * ((deltap t j + mu j) / (1 - rho m j)) / (1 - rho m j))) with (gsum m A_at).
      change (Rmax (maxn (pred (mJ m)) (fun j0 : nat => if is_eliminated c j0 then 0 else (deltap t j0 + mu j0) / (1 - rho m j0))) 0) with reduction_at.
      change (fun j0 : nat => (if is_eliminated c j0 then 0 else exp ((deltap t j0 + mu j0) / (1 - rho m j0) - reduction_at))
        * match c_availability c with Some a => a j0 | None => 1 end) with exps_at.
      fold (B_at (gid m j)).
      change (fun g : nat => indR (flag g) * (if Rlt_dec 0 (gsum m exps_at g) then gsum m P g * (gsum m A_at g * (1 - grho m g) - (ln (gsum m exps_at g) + reduction_at)) else 0))
        with (fun g : nat => indR (flag g) * B_at g).
      fold (scaled_at j). unfold du_at. fold (rho m j). assert (Hr := rho_lt _ _ V HH Hj).
      set (T := sumn (mH m) (fun h => gsum m P h * gsum m (fun k => C k * dd k) h) + sumn (mH m) (fun g => indR (flag g) * B_at g)).
      transitivity (C j * (dd j / (1 - rho m j) + indR (flag (gid m j)) * (scaled_at j / (1 - rho m j))
          - (gsum m (fun k => C k * dd k) (gid m j) / (1 - rho m j) + indR (flag (gid m j)) * gsum m A_at (gid m j))) * gsum m P (gid m j)
        + C j * (gsum m P (gid m j) * ls - gsum m P (gid m j) * T)).
      { unfold rho. ring. }
      rewrite L. unfold T. field. lra.
    - rewrite (sumn_ext (mH m) _ (group_weight (mJ m) (gid m) (grho m) inc (utility m (deltap t) mu))) by (intros; apply weight_at).
      apply choice_total_pos; assumption.
  Qed.

  Definition at_rho (y : R) : market := with_rho m (rt y).
  Lemma near_valid y : Rabs (y - t) < 1 - t -> valid_market (at_rho y).
  Proof using V HH Ht Hall.
    intro Hy. assert (Hy1 : y < 1) by (apply Rabs_def2 in Hy; lra). constructor; cbn.
    - apply (vm_J _ V).
    - apply (vm_gid _ V).
    - intros _ h Hh. destruct (flag h); [assumption|apply (vm_rho _ V HH h Hh)].
    - intros E a b Ha Hb. rewrite (Hall E a Ha), (Hall E b Hb). reflexivity.
    - apply (vm_eps _ V).
    - apply (vm_eps_nest _ V).
  Qed.
  Lemma utility_rho y k : utility (at_rho y) (deltap y) mu k = Vt y k.
  Proof using V HH. unfold utility. cbn. rewrite one_eps. field. Qed.

  Lemma utility_rho_all y : utility (at_rho y) (deltap y) mu = (fun k => deltap y k + mu k).
  Proof using V HH. apply functional_extensionality. apply utility_rho. Qed.

  Lemma choice_prob_nesting j : (j < mJ m)%nat ->
    derivable_pt_lim (fun y => choice_probabilities (at_rho y) c (deltap y) mu j) t
      (total_tangent m P C (fst (choice_rho_tangent m c P C (deltap t) mu assoc)) dd j).
  Proof using V HH NE Hflag Ht Hall Dd.
    intro Hj. apply (dlim_ext_near (fun y => nested (mJ m) (mH m) (gid m) (rt y) inc out (Vt y) j) _ t _ (1 - t)); [lra| |apply nesting_nested, Hj].
    intros y Hy. rewrite (choice_nested (at_rho y) out avail el ids (near_valid y Hy)) by assumption. rewrite utility_rho_all. reflexivity.
  Qed.
  Lemma choice_cond_nesting j : (j < mJ m)%nat ->
    derivable_pt_lim (fun y => choice_conditionals (at_rho y) c (deltap y) mu j) t
      (total_cond_tangent m C (snd (choice_rho_tangent m c P C (deltap t) mu assoc)) dd j).
  Proof using V HH Hflag Ht Hall Dd.
    intro Hj. apply (dlim_ext_near (fun y => within_group (mJ m) (gid m) (rt y) inc (Vt y) j) _ t _ (1 - t)); [lra| |apply nesting_within, Hj].
    intros y Hy. rewrite (choice_within (at_rho y) out avail el ids (near_valid y Hy)) by assumption. rewrite utility_rho_all. reflexivity.
  Qed.
End Nesting.

(** ** Second choices of populations *)
Lemma same_option_spec a b : same_option a b = true <-> a = b.
Proof.
  destruct a as [j|], b as [k|]; cbn; try (split; [discriminate|discriminate]); try (split; reflexivity).
  rewrite Nat.eqb_eq. split; [intros ->; reflexivity|intro E; injection E as ->; reflexivity].
Qed.
Lemma same_option_no a b : a <> b -> same_option a b = false.
Proof. intro N. destruct (same_option a b) eqn:E; [|reflexivity]. apply same_option_spec in E. contradiction. Qed.
Lemma best_except offered a r : best offered r <> Some a -> best (except offered a) r = best offered r.
Proof.
  unfold best. induction r as [|x r IH]; intro N; cbn [find] in *; [reflexivity|].
  unfold except at 1. destruct (offered x); cbn [andb] in *; [|apply IH, N].
  rewrite same_option_no by (intros ->; apply N; reflexivity). reflexivity.
Qed.
Lemma best_except_self offered a r : is_best (except offered a) a r = false.
Proof.
  unfold is_best. destruct (best (except offered a) r) as [b|] eqn:E; [|reflexivity].
  apply find_some in E. destruct E as [_ E]. unfold except in E. apply andb_true_iff in E. destruct E as [_ E].
  destruct (same_option a b); [discriminate|reflexivity].
Qed.
Lemma second_split offered a b r : a <> b ->
  is_best (except offered a) b r = is_best offered b r || (is_best offered a r && is_best (except offered a) b r) /\
  is_best offered b r && is_best offered a r = false.
Proof.
  intro N. unfold is_best. destruct (best offered r) as [x|] eqn:E.
  - destruct (same_option a x) eqn:Ea.
    + apply same_option_spec in Ea. subst x. rewrite (same_option_no b a) by congruence. split; reflexivity.
    + rewrite best_except.
      * rewrite E. cbn [andb]. rewrite orb_false_r, andb_false_r. split; reflexivity.
      * rewrite E. intro X. injection X as ->. assert (same_option a a = true) by (apply same_option_spec; reflexivity). congruence.
  - rewrite best_except by (rewrite E; discriminate). rewrite E. split; reflexivity.
Qed.
Lemma joint_difference pop offered a b : a <> b ->
  joint_share pop offered a b = share_of pop (except offered a) b - share_of pop offered b.
Proof.
  intro N. unfold joint_share, share_of. rewrite <- MicroProofs.so_minus. apply MicroProofs.so_ext. intros [w r] _. cbn [fst snd].
  destruct (second_split offered a b r N) as [E1 E2]. rewrite E1.
  destruct (is_best offered b r), (is_best offered a r), (is_best (except offered a) b r); cbn in *; try discriminate; ring.
Qed.
Lemma joint_self pop offered a : joint_share pop offered a a = 0.
Proof. unfold joint_share. apply MicroProofs.so_zero. intros d _. rewrite best_except_self, andb_false_r. reflexivity. Qed.

Lemma population_cells pop offered J p elim oute : explains pop offered J p elim oute ->
  forall a b, MicroSpec.in_range J a -> MicroSpec.in_range J b ->
  joint_share pop offered a b = cell_probability J p elim oute (Pair a b).
Proof.
  intros (E1 & E2 & E3 & E4 & E5) [j|] [k|] Ha Hb; cbn [MicroSpec.in_range cell_probability] in *.
  - destruct (Nat.eqb_spec j k) as [->|N]; [apply joint_self|]. rewrite joint_difference by congruence. rewrite E3, E1 by assumption. reflexivity.
  - rewrite joint_difference by discriminate. rewrite E4, E2 by assumption. reflexivity.
  - rewrite joint_difference by discriminate. rewrite E5, E1 by assumption. ring.
  - apply joint_self.
Qed.

(** ** Second choices with nesting *)
Lemma so_all_options J (f : option nat -> R) : sum_over (MicroSpec.all_options J) f = f None + sumn J (fun k => f (Some k)).
Proof. unfold MicroSpec.all_options. cbn [sum_over]. rewrite MicroProofs.so_map, MicroProofs.so_seq. reflexivity. Qed.

Lemma nested_outside_removed J H grp r inc V j : (forall i, (i < J)%nat -> (grp i < H)%nat) -> (j < J)%nat -> inc j = true ->
  nested J H grp r inc true V j <= nested J H grp r inc false V j.
Proof.
  intros Hg Hj E. rewrite !nested_factor by assumption. apply Rmult_le_compat_l; [left; apply exp_pos|]. unfold residual_part. cbn [indR].
  assert (Ex : existsb (fun i => inc i && Nat.eqb (grp i) (grp j)) (seq 0 J) = true).
  { apply existsb_intro with j; [assumption|]. rewrite E, Nat.eqb_refl; reflexivity. }
  assert (Hw : 0 < group_weight J grp r inc V (grp j)).
  { rewrite group_weight_inclusive by assumption. apply Rpower_pos. }
  assert (Hs : group_weight J grp r inc V (grp j) <= sumn H (group_weight J grp r inc V)).
  { apply (sumn_ge_term H (group_weight J grp r inc V)); [intros; apply group_weight_nonneg|auto]. }
  apply Rmult_le_compat_l; [left; apply Rpower_pos|]. apply Rinv_le_contravar; lra.
Qed.

Section Second.
  Variables (m : market) (avail : option (nat -> bool)) (delta mu : nat -> R).
  Hypothesis V : valid_market m.
  Hypothesis R0 : mH m <> O -> forall h, (h < mH m)%nat -> 0 <= grho m h.
  Hypothesis A : exists k, (k < mJ m)%nat /\ match avail with Some b => b k | None => true end = true.
  Notation av := (option_map (fun b j => indR (b j)) avail).
  Notation N := (nested (mJ m) (grpn m) (gidx m) (grhox m)).
  Notation U := (utility m delta mu).
  Notation inc := (remaining avail None None).
  Notation inc_ j := (remaining avail (Some j) None).

  Lemma unrestricted_is j : (j < mJ m)%nat -> choice_probabilities m (unrestricted av) delta mu j = N inc true U j.
  Proof using V. intro Hj. exact (probabilities_nested m true true avail None None delta mu j V Hj). Qed.
  Lemma without_product_is k j : (j < mJ m)%nat -> choice_probabilities m (without_product av None k) delta mu j = N (inc_ k) true U j.
  Proof using V. intro Hj. exact (probabilities_nested m true true avail (Some k) None delta mu j V Hj). Qed.
  Lemma without_outside_is j : (j < mJ m)%nat -> choice_probabilities m (without_outside av) delta mu j = N inc false U j.
  Proof using V. intro Hj. exact (probabilities_nested m true false avail None None delta mu j V Hj). Qed.
  Lemma groups_ok : forall i, (i < mJ m)%nat -> (gidx m i < grpn m)%nat.
  Proof using V. intros i Hi. apply gidx_lt; assumption. Qed.
  Lemma rho_ok : forall h, (h < grpn m)%nat -> 0 <= grhox m h < 1.
  Proof using V R0.
    intros h Hh. split; [|apply grhox_lt; assumption]. unfold grhox, grpn in *.
    destruct (Nat.eqb_spec (mH m) 0) as [HH|HH]; [lra|]. apply R0; assumption.
  Qed.
  Lemma nested_zero i out j : i j = false -> N i out U j = 0.
  Proof using. intro E. unfold nested, within_group. rewrite E. ring. Qed.
  Lemma fewer k i : inc_ k i = true -> inc i = true.
  Proof using. clear A. unfold remaining. destruct avail as [b|]; [destruct (b i)|]; cbn; intro E; try discriminate; reflexivity. Qed.
  Lemma inc_other k i : i <> k -> inc_ k i = inc i.
  Proof using. intro Ne. unfold remaining. apply Nat.eqb_neq in Ne. rewrite Ne. cbn [negb]. rewrite !andb_true_r. reflexivity. Qed.

  Lemma cell_nonneg c : cell_in_range (mJ m) c -> 0 <= nested_cell m av None delta mu c.
  Proof using V R0.
    clear A. unfold nested_cell. destruct c as [[j|]|[j|] [k|]]; cbn [cell_in_range MicroSpec.in_range cell_probability].
    - intro Hj. rewrite unrestricted_is by exact Hj. destruct (inc j) eqn:E; [|rewrite nested_zero by exact E; lra].
      left. apply nested_pos; [exact Hj|apply groups_ok, Hj|exact E].
    - intros _. rewrite (sumn_ext (mJ m) (choice_probabilities m (unrestricted av) delta mu) (N inc true U)) by exact unrestricted_is.
      assert (X := nested_total_lt_1 (mJ m) (grpn m) (gidx m) (grhox m) inc U groups_ok). lra.
    - intros [Hj Hk]. destruct (Nat.eqb_spec j k) as [->|Ne]; [lra|]. rewrite without_product_is, unrestricted_is by exact Hk.
      destruct (inc k) eqn:E.
      + assert (X := nested_gain (mJ m) (grpn m) (gidx m) (grhox m) (inc_ j) inc U k rho_ok groups_ok (fun i _ => fewer j i) Hk).
        rewrite inc_other in X by congruence. specialize (X E). lra.
      + rewrite !nested_zero by (try rewrite inc_other by congruence; exact E). lra.
    - intros [Hj _]. rewrite (sumn_ext (mJ m) (choice_probabilities m (without_product av None j) delta mu) (N (inc_ j) true U)) by (intros; apply without_product_is; assumption).
      rewrite (sumn_ext (mJ m) (choice_probabilities m (unrestricted av) delta mu) (N inc true U)) by exact unrestricted_is.
      assert (X := nested_outside_gain (mJ m) (grpn m) (gidx m) (grhox m) (inc_ j) inc U rho_ok groups_ok (fun i _ => fewer j i)). lra.
    - intros [_ Hk]. rewrite without_outside_is, unrestricted_is by exact Hk. destruct (inc k) eqn:E.
      + assert (X := nested_outside_removed (mJ m) (grpn m) (gidx m) (grhox m) inc U k groups_ok Hk E). lra.
      + rewrite !nested_zero by exact E. lra.
    - intros _. lra.
  Qed.

  Lemma cell_rows a : MicroSpec.in_range (mJ m) a ->
    sum_over (MicroSpec.all_options (mJ m)) (fun b => nested_cell m av None delta mu (Pair a b)) = nested_cell m av None delta mu (Single a).
  Proof using V A.
    intro Ha. rewrite so_all_options. unfold nested_cell. destruct a as [j|]; cbn [cell_probability MicroSpec.in_range] in *.
    - set (p := choice_probabilities m (unrestricted av) delta mu). set (e := choice_probabilities m (without_product av None j) delta mu).
      assert (E0 : e j = 0).
      { unfold e. rewrite without_product_is by exact Ha. apply nested_zero. unfold remaining. rewrite Nat.eqb_refl. cbn [negb]. rewrite andb_false_r. reflexivity. }
      rewrite (sumn_ext (mJ m) (fun k => if Nat.eqb j k then 0 else e k - p k) (fun k => (e k - p k) + (if Nat.eqb k j then p k - e k else 0))).
      2:{ intros k _. rewrite (Nat.eqb_sym k j). destruct (Nat.eqb j k); ring. }
      rewrite sumn_plus, sumn_minus, (sumn_delta (mJ m) j (fun k => p k - e k)) by exact Ha. rewrite E0. ring.
    - rewrite sumn_plus, sumn_opp. rewrite (sumn_ext (mJ m) (choice_probabilities m (without_outside av) delta mu) (N inc false U)) by exact without_outside_is.
      rewrite nested_total_no_outside; [ring|exact groups_ok|]. destruct A as [k [Hk E]]. exists k. split; [exact Hk|].
      unfold remaining. rewrite E. reflexivity.
  Qed.
  Lemma single_rows : sum_over (MicroSpec.all_options (mJ m)) (fun a => nested_cell m av None delta mu (Single a)) = 1.
  Proof using. rewrite so_all_options. unfold nested_cell. cbn [cell_probability].
    set (p := choice_probabilities m (unrestricted av) delta mu). change (sumn (mJ m) (fun k => p k)) with (sumn (mJ m) p). ring.
  Qed.
End Second.

(** ** Tangents of cells *)
Lemma cell_moves J (p : R -> nat -> R) (e : R -> nat -> nat -> R) (o : R -> nat -> R) dp de do t c :
  (forall k, (k < J)%nat -> derivable_pt_lim (fun x => p x k) t (dp k)) ->
  (forall j k, (j < J)%nat -> (k < J)%nat -> derivable_pt_lim (fun x => e x j k) t (de j k)) ->
  (forall k, (k < J)%nat -> derivable_pt_lim (fun x => o x k) t (do k)) ->
  cell_in_range J c ->
  derivable_pt_lim (fun x => cell_probability J (p x) (e x) (o x) c) t (cell_tangent J dp de do c).
Proof.
  intros Dp De Do. destruct c as [[j|]|[j|] [k|]]; cbn [cell_in_range MicroSpec.in_range cell_probability cell_tangent].
  - apply Dp.
  - intros _. eapply dlim_eq; [|apply (dlim_minus (fun _ => 1)); [apply dlim_const|apply (dlim_sumn J (fun k x => p x k) t dp), Dp]]. ring.
  - intros [Hj Hk]. destruct (Nat.eqb j k); [apply dlim_const|]. apply (dlim_minus (fun x => e x j k)); [apply De; assumption|apply Dp, Hk].
  - intros [Hj _]. apply (dlim_minus (fun x => 1 - sumn J (e x j)) (fun x => 1 - sumn J (p x)) t).
    + eapply dlim_eq; [|apply (dlim_minus (fun _ => 1)); [apply dlim_const|apply (dlim_sumn J (fun k x => e x j k) t (de j)); intros; apply De; assumption]]. ring.
    + eapply dlim_eq; [|apply (dlim_minus (fun _ => 1)); [apply dlim_const|apply (dlim_sumn J (fun k x => p x k) t dp), Dp]]. ring.
  - intros [_ Hk]. apply (dlim_plus (fun x => - p x k)); [|apply Do, Hk]. apply (dlim_opp (fun x => p x k)), Dp, Hk.
  - intros _. apply dlim_const.
Qed.

Section CellMoves.
  Variables (m : market) (avail : option (nat -> bool)) (ids : option (nat -> nat -> bool)).
  Hypothesis V : valid_market m.
  Hypothesis A : exists k, (k < mJ m)%nat /\ match avail with Some b => b k | None => true end = true.
  Notation av := (option_map (fun b j => indR (b j)) avail).

  Lemma some_remain : nonempty (mJ m) false avail None None.
  Proof using A. right. destruct A as [k [Hk E]]. exists k. split; [exact Hk|]. unfold remaining. rewrite E. reflexivity. Qed.
  Lemma without_product_shape j : without_product av ids j
    = match ids with None => choice_of true avail (Some j) None | Some same => choice_of true avail None (Some (same j)) end.
  Proof using. clear A. destruct ids; reflexivity. Qed.

  Lemma cell_utility_moves deltap mup t dd dmu c :
    (forall k, (k < mJ m)%nat -> derivable_pt_lim (fun y => deltap y k) t (dd k)) ->
    (forall k, (k < mJ m)%nat -> derivable_pt_lim (fun y => mup y k) t (dmu k)) ->
    cell_in_range (mJ m) c ->
    derivable_pt_lim (fun y => nested_cell m av ids (deltap y) (mup y) c) t
      (nested_cell_tangent m av ids (deltap t) (mup t) dd (choice_utility_tangent m (deltap t) (mup t) dmu) c).
  Proof using V A.
    intros Dd Dm Hc. unfold nested_cell, nested_cell_tangent, choice_total_tangent, choice_utility_tangent.
    apply (cell_moves (mJ m) (fun y => choice_probabilities m (unrestricted av) (deltap y) (mup y))
      (fun y j => choice_probabilities m (without_product av ids j) (deltap y) (mup y))
      (fun y => choice_probabilities m (without_outside av) (deltap y) (mup y))); [| | |exact Hc].
    - intros k Hk. apply (choice_prob_moves m true avail None None V (or_introl eq_refl)); assumption.
    - intros j k _ Hk. rewrite without_product_shape. destruct ids as [same|].
      + apply (choice_prob_moves m true avail None (Some (same j)) V (or_introl eq_refl)); assumption.
      + apply (choice_prob_moves m true avail (Some j) None V (or_introl eq_refl)); assumption.
    - intros k Hk. apply (choice_prob_moves m false avail None None V some_remain); assumption.
  Qed.

  Lemma cell_nesting_moves flag t deltap mu dd c : mH m <> O ->
    (forall h, flag h = true -> grho m h = t) -> t < 1 ->
    (rho_multi m = false -> forall h, (h < mH m)%nat -> flag h = true) ->
    (forall k, (k < mJ m)%nat -> derivable_pt_lim (fun y => deltap y k) t (dd k)) ->
    cell_in_range (mJ m) c ->
    derivable_pt_lim (fun y => nested_cell (at_rho m flag y) av ids (deltap y) mu c) t
      (nested_cell_tangent m av ids (deltap t) mu dd (choice_nesting_tangent m (deltap t) mu (fun h => indR (flag h))) c).
  Proof using V A.
    intros HH Hf Ht Ha Dd Hc. unfold nested_cell, nested_cell_tangent, choice_total_tangent, choice_nesting_tangent.
    apply (cell_moves (mJ m) (fun y => choice_probabilities (at_rho m flag y) (unrestricted av) (deltap y) mu)
      (fun y j => choice_probabilities (at_rho m flag y) (without_product av ids j) (deltap y) mu)
      (fun y => choice_probabilities (at_rho m flag y) (without_outside av) (deltap y) mu)); [| | |exact Hc].
    - intros k Hk. apply (choice_prob_nesting m true avail None None V HH (or_introl eq_refl) flag t Hf Ht Ha deltap mu dd Dd k Hk).
    - intros j k _ Hk. rewrite without_product_shape. destruct ids as [same|].
      + apply (choice_prob_nesting m true avail None (Some (same j)) V HH (or_introl eq_refl) flag t Hf Ht Ha deltap mu dd Dd k Hk).
      + apply (choice_prob_nesting m true avail (Some j) None V HH (or_introl eq_refl) flag t Hf Ht Ha deltap mu dd Dd k Hk).
    - intros k Hk. apply (choice_prob_nesting m false avail None None V HH some_remain flag t Hf Ht Ha deltap mu dd Dd k Hk).
  Qed.
End CellMoves.

(** ** Surveys *)
Lemma options_are o J a : In a (options_of o J) -> MicroSpec.in_range J a.
Proof. apply MicroProofs.options_range. Qed.
Lemma cells_are s J c : In c (cells s J) -> cell_in_range J c.
Proof. intro H. destruct (MicroProofs.cells_range s J c H) as [A B]. destruct c as [a|a b]; cbn; [apply A; reflexivity|apply B; reflexivity]. Qed.
Lemma sumn_so {A} n (l : list A) (w : A -> R) f : sumn n (fun i => sum_over l (fun a => w a * f i a)) = sum_over l (fun a => w a * sumn n (fun i => f i a)).
Proof.
  induction l as [|a l IH]; cbn [sum_over]; [apply sumn_zero|]. rewrite sumn_plus, IH, sumn_scal. reflexivity.
Qed.

Section SurveyMoves.
  Variables (t : R) (s : survey) (q : R -> nat -> cell -> R) (dq : nat -> cell -> R).
  Hypothesis S : smooth_cells t s q dq.

  Lemma tangent_rows i a : (i < s_I s)%nat -> MicroSpec.in_range (s_J s) a ->
    sum_over (MicroSpec.all_options (s_J s)) (fun b => dq i (Pair a b)) = dq i (Single a).
  Proof using S.
    intros Hi Ha. destruct (sc_near _ _ _ _ S) as [r [Hr H]].
    apply (uniqueness_limite (fun x => q x i (Single a)) t); [|apply (sc_deriv _ _ _ _ S); [exact Hi|exact Ha]].
    apply (MicroProofs.deriv_local (fun x => sum_over (MicroSpec.all_options (s_J s)) (fun b => q x i (Pair a b))) _ t _ r Hr).
    - intros x Hx. apply (H x Hx i Hi), Ha.
    - apply (MicroProofs.so_deriv (MicroSpec.all_options (s_J s)) (fun b x => q x i (Pair a b))). intros b Hb. apply (sc_deriv _ _ _ _ S); [exact Hi|].
      split; [exact Ha|]. unfold MicroSpec.all_options in Hb. destruct Hb as [<-|Hb]; [exact I|]. apply in_map_iff in Hb. destruct Hb as (k & <- & Hk). apply in_seq in Hk. cbn. lia.
  Qed.
  Lemma survey_weight_moves i c : (i < s_I s)%nat -> In c (cells (s_shape s) (s_J s)) ->
    derivable_pt_lim (fun x => survey_weight s (q x) i c) t (s_weight s i c * s_agent_weight s i * dq i c).
  Proof using S.
    intros Hi Hc. apply cells_are in Hc. destruct (sc_near _ _ _ _ S) as [r [Hr H]].
    apply (MicroProofs.deriv_local (fun x => s_weight s i c * s_agent_weight s i * q x i c) _ t _ r Hr).
    - intros x Hx. unfold survey_weight. rewrite MicroProofs.truncate_nonneg; [reflexivity|].
      apply Rmult_le_pos; [apply Rmult_le_pos; [apply (sc_weights _ _ _ _ S)|apply (sc_agents _ _ _ _ S), Hi]|apply (H x Hx i Hi), Hc].
    - eapply dlim_eq; [|apply (dlim_scal (s_weight s i c * s_agent_weight s i)), (sc_deriv _ _ _ _ S); assumption]. ring.
  Qed.
  Lemma survey_sum_moves (f : nat -> cell -> R -> R) g :
    (forall i c, (i < s_I s)%nat -> In c (cells (s_shape s) (s_J s)) -> derivable_pt_lim (f i c) t (g i c)) ->
    derivable_pt_lim (fun x => survey_sum s (fun i c => f i c x)) t (survey_sum s g).
  Proof using.
    intro H. unfold survey_sum. apply (dlim_sumn (s_I s) (fun i x => sum_over (cells (s_shape s) (s_J s)) (fun c => f i c x))). intros i Hi.
    apply (MicroProofs.so_deriv (cells (s_shape s) (s_J s)) (fun c => f i c)). intros c Hc. apply H; assumption.
  Qed.
  Lemma numerator_moves : derivable_pt_lim (fun x => survey_numerator s (q x)) t (survey_numerator_jacobian s dq).
  Proof using S.
    apply (survey_sum_moves (fun i c x => survey_weight s (q x) i c * s_value s i c)). intros i c Hi Hc.
    apply (dlim_scal_r (s_value s i c) (fun x => survey_weight s (q x) i c)), survey_weight_moves; assumption.
  Qed.
  Lemma survey_constant_spec : survey_constant s = true ->
    (forall i c, (i < s_I s)%nat -> In c (cells (s_shape s) (s_J s)) -> s_weight s i c = s_weight s 0 c) /\
    (forall o1 o2, s_shape s = Three o1 o2 -> o2 = true /\ forall i a b, (i < s_I s)%nat -> In (Pair a b) (cells (s_shape s) (s_J s)) ->
       s_weight s i (Pair a b) = s_weight s i (Pair a None)).
  Proof using.
    clear S. intro H. unfold survey_constant in H. apply andb_true_iff in H. destruct H as [H1 H2]. rewrite forallb_forall in H1. split.
    - intros i c Hi C. assert (Q := H1 i ltac:(apply in_seq; lia)). rewrite forallb_forall in Q. apply MicroProofs.reqb_spec, Q, C.
    - intros o1 o2 Es. rewrite Es in H2 |- *. apply andb_true_iff in H2. destruct H2 as [H2 H3]. split; [exact H2|].
      intros i a b Hi C. rewrite forallb_forall in H3. assert (Q := H3 i ltac:(apply in_seq; lia)).
      rewrite forallb_forall in Q. apply MicroProofs.reqb_spec. exact (Q _ C).
  Qed.
  Lemma constant_cells : survey_constant s = true -> survey_sum s (fun i c => s_weight s i c * s_agent_weight s i * dq i c) = 0.
  Proof using S.
    intro H. destruct (survey_constant_spec H) as [C1 C2]. unfold survey_sum. destruct (s_shape s) as [o|o1 o2] eqn:Es; cbn [cells].
    - rewrite (sumn_ext (s_I s) _ (fun i => sum_over (options_of o (s_J s)) (fun a => s_weight s 0 (Single a) * (s_agent_weight s i * dq i (Single a))))).
      + rewrite sumn_so. apply MicroProofs.so_zero. intros a Ha. rewrite (sc_shares _ _ _ _ S) by exact (options_are o _ _ Ha). ring.
      + intros i Hi. rewrite MicroProofs.so_map. apply MicroProofs.so_ext. intros a Ha. rewrite (C1 i (Single a) Hi); [ring|]. cbn [cells]. apply in_map, Ha.
    - destruct (C2 o1 o2 eq_refl) as [-> C3].
      rewrite (sumn_ext (s_I s) _ (fun i => sum_over (options_of o1 (s_J s)) (fun a => s_weight s 0 (Pair a None) * (s_agent_weight s i * dq i (Single a))))).
      + rewrite sumn_so. apply MicroProofs.so_zero. intros a Ha. rewrite (sc_shares _ _ _ _ S) by exact (options_are o1 _ _ Ha). ring.
      + intros i Hi. rewrite MicroProofs.so_flat_map. apply MicroProofs.so_ext. intros a Ha.
        rewrite <- (tangent_rows i a Hi (options_are o1 _ _ Ha)). rewrite <- MicroProofs.so_scal, <- MicroProofs.so_scal, MicroProofs.so_map.
        apply MicroProofs.so_ext. intros b Hb.
        assert (In2 : In (Pair a b) (cells (Three o1 true) (s_J s))) by (cbn [cells]; apply in_flat_map; exists a; split; [exact Ha|apply in_map, Hb]).
        assert (In0 : In (Pair a None) (cells (Three o1 true) (s_J s))) by (cbn [cells]; apply in_flat_map; exists a; split; [exact Ha|apply in_map; left; reflexivity]).
        rewrite (C3 i a b Hi In2), (C1 i _ Hi In0). ring.
  Qed.
  Lemma denominator_moves : derivable_pt_lim (fun x => survey_denominator s (q x)) t (survey_denominator_jacobian s dq).
  Proof using S.
    assert (D : derivable_pt_lim (fun x => survey_denominator s (q x)) t (survey_sum s (fun i c => s_weight s i c * s_agent_weight s i * dq i c))).
    { apply (survey_sum_moves (fun i c x => survey_weight s (q x) i c)). exact survey_weight_moves. }
    unfold survey_denominator_jacobian. destruct (survey_constant s) eqn:E; [|exact D]. rewrite <- (constant_cells E). exact D.
  Qed.
End SurveyMoves.

Lemma part_moves (l : list (survey * (R -> nat -> cell -> R) * (nat -> cell -> R))) t :
  (forall d, In d l -> smooth_cells t (fst (fst d)) (snd (fst d)) (snd d)) ->
  sum_over l (fun d => survey_denominator (fst (fst d)) (snd (fst d) t)) <> 0 ->
  derivable_pt_lim (fun x => surveys_part (map (fun d => (fst (fst d), snd (fst d) x)) l)) t
    (surveys_part_jacobian (map (fun d => (fst (fst d), snd (fst d) t, snd d)) l)).
Proof.
  intros S N. unfold surveys_part_jacobian, surveys_part. rewrite map_map. cbn [fst]. rewrite !MicroProofs.so_map. cbn [fst snd].
  apply (dlim_ext (fun x => sum_over l (fun d => survey_numerator (fst (fst d)) (snd (fst d) x)) / sum_over l (fun d => survey_denominator (fst (fst d)) (snd (fst d) x)))).
  - intro x. rewrite !MicroProofs.so_map. reflexivity.
  - apply (MicroProofs.deriv_div (fun x => sum_over l (fun d => survey_numerator (fst (fst d)) (snd (fst d) x))) (fun x => sum_over l (fun d => survey_denominator (fst (fst d)) (snd (fst d) x)))).
    + apply (MicroProofs.so_deriv l (fun d x => survey_numerator (fst (fst d)) (snd (fst d) x))). intros d Hd. apply numerator_moves, S, Hd.
    + apply (MicroProofs.so_deriv l (fun d x => survey_denominator (fst (fst d)) (snd (fst d) x))). intros d Hd. apply denominator_moves, S, Hd.
    + exact N.
Qed.

(** Agents' cells. *)
Lemma cell_moves_outside J dp de do : cell_tangent J dp de do (Single None) = - sumn J (fun k => cell_tangent J dp de do (Single (Some k))).
Proof. reflexivity. Qed.
Lemma shares_none n J (w : nat -> R) (dq : nat -> cell -> R) :
  (forall i, dq i (Single None) = - sumn J (fun k => dq i (Single (Some k)))) ->
  (forall j, (j < J)%nat -> sumn n (fun i => w i * dq i (Single (Some j))) = 0) ->
  forall a, MicroSpec.in_range J a -> sumn n (fun i => w i * dq i (Single a)) = 0.
Proof.
  intros E H [j|] Ha; [apply H, Ha|]. rewrite (sumn_ext n _ (fun i => - sumn J (fun k => w i * dq i (Single (Some k))))).
  - rewrite sumn_opp, sumn_swap. rewrite (sumn_ext J _ (fun _ => 0)); [rewrite sumn_zero; ring|]. intros k Hk. apply H, Hk.
  - intros i _. rewrite E, sumn_scal. ring.
Qed.

Lemma utility_smooth m (avail : nat -> option (nat -> bool)) s deltap mup t dd dmu : valid_market m ->
  (mH m <> O -> forall h, (h < mH m)%nat -> 0 <= grho m h) -> s_J s = mJ m ->
  (forall i, (i < s_I s)%nat -> can_choose (mJ m) (avail i)) ->
  (forall i, (i < s_I s)%nat -> 0 <= s_agent_weight s i) -> (forall i c, 0 <= s_weight s i c) ->
  (forall k, (k < mJ m)%nat -> derivable_pt_lim (fun y => deltap y k) t (dd k)) ->
  (forall i k, (i < s_I s)%nat -> (k < mJ m)%nat -> derivable_pt_lim (fun y => mup y i k) t (dmu i k)) ->
  let dq := fun i => nested_cell_tangent m (row (avail i)) None (deltap t) (mup t i) dd (choice_utility_tangent m (deltap t) (mup t i) (dmu i)) in
  (forall j, (j < mJ m)%nat -> sumn (s_I s) (fun i => s_agent_weight s i * dq i (Single (Some j))) = 0) ->
  smooth_cells t s (fun y i => nested_cell m (row (avail i)) None (deltap y) (mup y i)) dq.
Proof.
  intros V R0 EJ A W1 W2 Dd Dm dq Sh. constructor; [exact W1|exact W2| | |].
  - exists 1. split; [lra|]. intros x _ i Hi. rewrite EJ. split.
    + intros c Hc. apply cell_nonneg; assumption.
    + intros a Ha. apply cell_rows; [assumption|apply A, Hi|exact Ha].
  - intros i c Hi Hc. rewrite EJ in Hc. apply (cell_utility_moves m (avail i) None V (A i Hi) deltap (fun y => mup y i)); [exact Dd|intros; apply Dm; assumption|exact Hc].
  - rewrite EJ. apply (shares_none _ (mJ m)); [|exact Sh]. intro i. apply cell_moves_outside.
Qed.

Lemma nesting_smooth m (avail : nat -> option (nat -> bool)) s flag deltap mu t dd : valid_market m -> mH m <> O ->
  (forall h, (h < mH m)%nat -> 0 <= grho m h) -> s_J s = mJ m ->
  (forall h, flag h = true -> grho m h = t) -> 0 < t < 1 ->
  (rho_multi m = false -> forall h, (h < mH m)%nat -> flag h = true) ->
  (forall i, (i < s_I s)%nat -> can_choose (mJ m) (avail i)) ->
  (forall i, (i < s_I s)%nat -> 0 <= s_agent_weight s i) -> (forall i c, 0 <= s_weight s i c) ->
  (forall k, (k < mJ m)%nat -> derivable_pt_lim (fun y => deltap y k) t (dd k)) ->
  let dq := fun i => nested_cell_tangent m (row (avail i)) None (deltap t) (mu i) dd (choice_nesting_tangent m (deltap t) (mu i) (fun h => indR (flag h))) in
  (forall j, (j < mJ m)%nat -> sumn (s_I s) (fun i => s_agent_weight s i * dq i (Single (Some j))) = 0) ->
  smooth_cells t s (fun y i => nested_cell (nested_at m flag y) (row (avail i)) None (deltap y) (mu i)) dq.
Proof.
  intros V HH R0 EJ Hf Ht Ha A W1 W2 Dd dq Sh. constructor; [exact W1|exact W2| | |].
  - exists (Rmin t (1 - t)). split; [apply Rmin_glb_lt; lra|]. intros x Hx i Hi.
    assert (L1 := Rmin_l t (1 - t)). assert (L2 := Rmin_r t (1 - t)).
    assert (Vx : valid_market (nested_at m flag x)) by (apply (near_valid m V HH flag t ltac:(lra) Ha); lra).
    apply Rabs_def2 in Hx. rewrite EJ. split.
    + intros c Hc. apply (cell_nonneg (nested_at m flag x)); [exact Vx| |exact Hc]. intros _ h Hh. cbn. destruct (flag h); [lra|apply R0, Hh].
    + intros a Ha'. apply (cell_rows (nested_at m flag x)); [exact Vx|apply A, Hi|exact Ha'].
  - intros i c Hi Hc. rewrite EJ in Hc. apply (cell_nesting_moves m (avail i) None V (A i Hi) flag t deltap (mu i) dd c HH Hf ltac:(lra) Ha Dd Hc).
  - rewrite EJ. apply (shares_none _ (mJ m)); [|exact Sh]. intro i. apply cell_moves_outside.
Qed.

(** ** A market in which the product formula is wrong *)
Definition twins_rho : R := 1 - ln (3 / 2) / ln 2.
Definition twins : market := mk_market 2 1 (fun _ => O) false (fun _ => twins_rho) 1.
Definition twins_people : population :=
  [(1 / 5, [None; Some 0%nat; Some 1%nat]); (1 / 5, [None; Some 1%nat; Some 0%nat]);
   (1 / 5, [Some 0%nat; Some 1%nat; None]); (1 / 5, [Some 1%nat; Some 0%nat; None]);
   (1 / 10, [Some 0%nat; None; Some 1%nat]); (1 / 10, [Some 1%nat; None; Some 0%nat])].
Lemma ln2_pos : 0 < ln 2. Proof. rewrite <- ln_1. apply ln_increasing; lra. Qed.
Lemma twins_rho_range : 0 < twins_rho < 1.
Proof.
  unfold twins_rho. assert (H := ln2_pos). assert (H1 : 0 < ln (3 / 2)) by (rewrite <- ln_1; apply ln_increasing; lra).
  assert (H2 : ln (3 / 2) < ln 2) by (apply ln_increasing; lra).
  assert (0 < ln (3 / 2) / ln 2) by (apply Rdiv_lt_0_compat; assumption).
  assert (ln (3 / 2) / ln 2 < 1).
  { apply Rmult_lt_reg_r with (ln 2); [exact H|]. unfold Rdiv. rewrite Rmult_assoc, Rinv_l by lra. lra. }
  lra.
Qed.
Lemma twins_valid : valid_market twins.
Proof. assert (H := twins_rho_range). constructor; cbn; try lia; try lra; intros; try lia; try lra; reflexivity. Qed.
Lemma twins_weight inc : group_weight 2 (fun _ => O) (fun _ => twins_rho) inc (fun _ => 0) 0
  = match inc 0%nat, inc 1%nat with true, true => 3 / 2 | false, false => 0 | _, _ => 1 end.
Proof.
  assert (H := ln2_pos). assert (P1 : forall x, Rpower 1 x = 1) by (intro x; unfold Rpower; rewrite ln_1, Rmult_0_r; apply exp_0).
  unfold group_weight, inclusive. cbn [seq existsb sumn Nat.eqb]. rewrite !andb_true_r.
  replace (0 / (1 - twins_rho)) with 0 by (unfold Rdiv; ring). rewrite exp_0.
  destruct (inc 0%nat), (inc 1%nat); cbn [orb].
  - replace (0 + 1 + 1) with 2 by ring. unfold Rpower, twins_rho. replace ((1 - (1 - ln (3 / 2) / ln 2)) * ln 2) with (ln (3 / 2)) by (field; lra).
    apply exp_ln. lra.
  - replace (0 + 1 + 0) with 1 by ring. apply P1.
  - replace (0 + 0 + 1) with 1 by ring. apply P1.
  - reflexivity.
Qed.
Lemma twins_within inc j : (j < 2)%nat -> within_group 2 (fun _ => O) (fun _ => twins_rho) inc (fun _ => 0) j
  = if inc j then (if inc (1 - j)%nat then / 2 else 1) else 0.
Proof.
  intro Hj. unfold within_group, inclusive. cbn [sumn Nat.eqb]. rewrite !andb_true_r. replace (0 / (1 - twins_rho)) with 0 by (unfold Rdiv; ring). rewrite exp_0.
  destruct j as [|[|]]; [| |lia]; cbn [Nat.sub]; destruct (inc 0%nat), (inc 1%nat); try reflexivity; field.
Qed.
Lemma twins_probability out el j : (j < 2)%nat ->
  choice_probabilities twins (choice_of out None el None) (fun _ => 0) (fun _ => 0) j
  = (if remaining None el None j then (if remaining None el None (1 - j)%nat then / 2 else 1) else 0)
    * (match remaining None el None 0%nat, remaining None el None 1%nat with true, true => 3 / 2 | false, false => 0 | _, _ => 1 end
       / (indR out + match remaining None el None 0%nat, remaining None el None 1%nat with true, true => 3 / 2 | false, false => 0 | _, _ => 1 end)).
Proof.
  intro Hj. rewrite (choice_nested twins out None el None twins_valid) by (try exact Hj; discriminate).
  assert (EU : utility twins (fun _ => 0) (fun _ => 0) = (fun _ => 0)) by (apply functional_extensionality; intro; unfold utility; cbn; field).
  rewrite EU. unfold nested, group_share. cbn [twins mJ mH gid grho]. rewrite twins_within by exact Hj. cbn [sumn]. rewrite twins_weight. rewrite Rplus_0_l. reflexivity.
Qed.
Lemma twins_p j : (j < 2)%nat -> choice_probabilities twins (unrestricted None) (fun _ => 0) (fun _ => 0) j = 3 / 10.
Proof. intro Hj. change (unrestricted None) with (choice_of true None None None). rewrite twins_probability by exact Hj. cbn. lra. Qed.
Lemma twins_e j k : (j < 2)%nat -> (k < 2)%nat ->
  choice_probabilities twins (without_product None None j) (fun _ => 0) (fun _ => 0) k = if Nat.eqb j k then 0 else 1 / 2.
Proof.
  intros Hj Hk. change (without_product None None j) with (choice_of true None (Some j) None). rewrite twins_probability by exact Hk.
  destruct j as [|[|]]; [| |lia]; (destruct k as [|[|]]; [| |lia]); cbn; lra.
Qed.
Lemma twins_o k : (k < 2)%nat -> choice_probabilities twins (without_outside None) (fun _ => 0) (fun _ => 0) k = 1 / 2.
Proof. intro Hk. change (without_outside None) with (choice_of false None None None). rewrite twins_probability by exact Hk. cbn. lra. Qed.
Lemma twins_explained : explains twins_people (fun _ => true) 2 (choice_probabilities twins (unrestricted None) (fun _ => 0) (fun _ => 0))
  (fun j => choice_probabilities twins (without_product None None j) (fun _ => 0) (fun _ => 0))
  (choice_probabilities twins (without_outside None) (fun _ => 0) (fun _ => 0)).
Proof.
  unfold explains. cbn [sumn]. repeat split.
  - intros k Hk. rewrite twins_p by exact Hk. destruct k as [|[|]]; [| |lia]; cbn; lra.
  - rewrite !twins_p by lia. cbn. lra.
  - intros j k Hj Hk. rewrite twins_e by assumption. destruct j as [|[|]]; [| |lia]; (destruct k as [|[|]]; [| |lia]); cbn; lra.
  - intros j Hj. rewrite !twins_e by (try lia; exact Hj). destruct j as [|[|]]; [| |lia]; cbn; lra.
  - intros k Hk. rewrite twins_o by exact Hk. destruct k as [|[|]]; [| |lia]; cbn; lra.
Qed.

Lemma nested_at_same m flag t : (forall h, flag h = true -> grho m h = t) -> nested_at m flag t = m.
Proof.
  intro Hf. destruct m as [J H g mu r e]. unfold nested_at, with_rho. cbn in *. f_equal. apply functional_extensionality. intro h.
  destruct (flag h) eqn:E; [symmetry; apply Hf, E|reflexivity].
Qed.

(** Parts that add up markets. *)
Lemma taste_part_moves : forall (ds : list (market * (nat -> option (nat -> bool)) * survey * (R -> nat -> R) * (R -> nat -> nat -> R) * (nat -> R) * (nat -> nat -> R))) t,
  (forall m avail s deltap mup dd dmu, In (m, avail, s, deltap, mup, dd, dmu) ds ->
    valid_market m /\ (mH m <> O -> forall h, (h < mH m)%nat -> 0 <= grho m h) /\ s_J s = mJ m /\
    (forall i, (i < s_I s)%nat -> can_choose (mJ m) (avail i) /\ 0 <= s_agent_weight s i) /\ (forall i c, 0 <= s_weight s i c) /\
    (forall k, (k < mJ m)%nat -> derivable_pt_lim (fun y => deltap y k) t (dd k)) /\
    (forall i k, (i < s_I s)%nat -> (k < mJ m)%nat -> derivable_pt_lim (fun y => mup y i k) t (dmu i k)) /\
    (forall j, (j < mJ m)%nat -> sumn (s_I s) (fun i => s_agent_weight s i *
       nested_cell_tangent m (row (avail i)) None (deltap t) (mup t i) dd (choice_utility_tangent m (deltap t) (mup t i) (dmu i)) (Single (Some j))) = 0)) ->
  let surveys := fun x => map (fun '(m, avail, s, deltap, mup, dd, dmu) =>
    (s, fun i => nested_cell m (row (avail i)) None (deltap x) (mup x i))) ds in
  let tangents := map (fun '(m, avail, s, deltap, mup, dd, dmu) =>
    (s, (fun i => nested_cell m (row (avail i)) None (deltap t) (mup t i)),
     (fun i => nested_cell_tangent m (row (avail i)) None (deltap t) (mup t i) dd (choice_utility_tangent m (deltap t) (mup t i) (dmu i))))) ds in
  sum_over (surveys t) (fun d => survey_denominator (fst d) (snd d)) <> 0 ->
  derivable_pt_lim (fun x => surveys_part (surveys x)) t (surveys_part_jacobian tangents).
Proof.
  intros ds t H surveys tangents N.
  set (l := map (fun '(m, avail, s, deltap, mup, dd, dmu) => (s, (fun y i => nested_cell m (row (avail i)) None (deltap y) (mup y i)),
    (fun i => nested_cell_tangent m (row (avail i)) None (deltap t) (mup t i) dd (choice_utility_tangent m (deltap t) (mup t i) (dmu i))))) ds : list (survey * (R -> nat -> cell -> R) * (nat -> cell -> R))).
  assert (E1 : forall x, surveys x = map (fun d => (fst (fst d), snd (fst d) x)) l).
  { intro x. unfold surveys, l. rewrite map_map. apply map_ext. intros [[[[[[m avail] s] deltap] mup] dd] dmu]. reflexivity. }
  assert (E2 : tangents = map (fun d => (fst (fst d), snd (fst d) t, snd d)) l).
  { unfold tangents, l. rewrite map_map. apply map_ext. intros [[[[[[m avail] s] deltap] mup] dd] dmu]. reflexivity. }
  rewrite E2. apply (dlim_ext (fun x => surveys_part (map (fun d => (fst (fst d), snd (fst d) x)) l))); [intro x; rewrite E1; reflexivity|].
  apply part_moves.
  - intros d Hd. unfold l in Hd. apply in_map_iff in Hd. destruct Hd as ([[[[[[m avail] s] deltap] mup] dd] dmu] & <- & Hin).
    destruct (H _ _ _ _ _ _ _ Hin) as (V & R0 & EJ & A & W & Dd & Dm & Sh). cbn [fst snd].
    apply utility_smooth; try assumption; intros i Hi; apply A, Hi.
  - rewrite E1, MicroProofs.so_map in N. exact N.
Qed.
Lemma nesting_part_moves : forall (ds : list (market * (nat -> option (nat -> bool)) * survey * (nat -> bool) * (R -> nat -> R) * (nat -> nat -> R) * (nat -> R))) t,
  0 < t < 1 ->
  (forall m avail s flag deltap mu dd, In (m, avail, s, flag, deltap, mu, dd) ds ->
    valid_market m /\ mH m <> O /\ (forall h, (h < mH m)%nat -> 0 <= grho m h) /\ s_J s = mJ m /\
    (forall h, flag h = true -> grho m h = t) /\
    (rho_multi m = false -> forall h, (h < mH m)%nat -> flag h = true) /\
    (forall i, (i < s_I s)%nat -> can_choose (mJ m) (avail i) /\ 0 <= s_agent_weight s i) /\ (forall i c, 0 <= s_weight s i c) /\
    (forall k, (k < mJ m)%nat -> derivable_pt_lim (fun y => deltap y k) t (dd k)) /\
    (forall j, (j < mJ m)%nat -> sumn (s_I s) (fun i => s_agent_weight s i *
       nested_cell_tangent m (row (avail i)) None (deltap t) (mu i) dd (choice_nesting_tangent m (deltap t) (mu i) (fun h => indR (flag h))) (Single (Some j))) = 0)) ->
  let surveys := fun x => map (fun '(m, avail, s, flag, deltap, mu, dd) =>
    (s, fun i => nested_cell (nested_at m flag x) (row (avail i)) None (deltap x) (mu i))) ds in
  let tangents := map (fun '(m, avail, s, flag, deltap, mu, dd) =>
    (s, (fun i => nested_cell m (row (avail i)) None (deltap t) (mu i)),
     (fun i => nested_cell_tangent m (row (avail i)) None (deltap t) (mu i) dd (choice_nesting_tangent m (deltap t) (mu i) (fun h => indR (flag h)))))) ds in
  sum_over (surveys t) (fun d => survey_denominator (fst d) (snd d)) <> 0 ->
  derivable_pt_lim (fun x => surveys_part (surveys x)) t (surveys_part_jacobian tangents).
Proof.
  intros ds t Ht H surveys tangents N.
  set (l := map (fun '(m, avail, s, flag, deltap, mu, dd) => (s, (fun y i => nested_cell (nested_at m flag y) (row (avail i)) None (deltap y) (mu i)),
    (fun i => nested_cell_tangent m (row (avail i)) None (deltap t) (mu i) dd (choice_nesting_tangent m (deltap t) (mu i) (fun h => indR (flag h)))))) ds : list (survey * (R -> nat -> cell -> R) * (nat -> cell -> R))).
  assert (E1 : forall x, surveys x = map (fun d => (fst (fst d), snd (fst d) x)) l).
  { intro x. unfold surveys, l. rewrite map_map. apply map_ext. intros [[[[[[m avail] s] flag] deltap] mu] dd]. reflexivity. }
  assert (S : forall d, In d l -> smooth_cells t (fst (fst d)) (snd (fst d)) (snd d)).
  { intros d Hd. unfold l in Hd. apply in_map_iff in Hd. destruct Hd as ([[[[[[m avail] s] flag] deltap] mu] dd] & <- & Hin).
    destruct (H _ _ _ _ _ _ _ Hin) as (V & HH & R0 & EJ & Hf & Ha & A & W & Dd & Sh). cbn [fst snd].
    apply nesting_smooth; try assumption; intros i Hi; apply A, Hi. }
  assert (E2 : tangents = map (fun d => (fst (fst d), snd (fst d) t, snd d)) l).
  { unfold tangents, l. rewrite map_map. apply map_ext_in. intros [[[[[[m avail] s] flag] deltap] mu] dd] Hin. cbn [fst snd].
    destruct (H _ _ _ _ _ _ _ Hin) as (V & HH & R0 & EJ & Hf & Ha & A & W & Dd & Sh).
    rewrite (nested_at_same m flag t Hf). reflexivity. }
  rewrite E2. apply (dlim_ext (fun x => surveys_part (map (fun d => (fst (fst d), snd (fst d) x)) l))); [intro x; rewrite E1; reflexivity|].
  apply part_moves; [exact S|]. rewrite E1, MicroProofs.so_map in N. exact N.
Qed.

(** ** Examples *)
Lemma utility_tangent_zero m P C j : valid_market m -> (j < mJ m)%nat -> fst (utility_tangent m P C (fun _ => 0)) j = 0.
Proof.
  intros V Hj. destruct (utility_tangent_plus m P C (fun _ => 0) (fun _ => 0) j V Hj) as [E _].
  replace (fun _ : nat => 0 + 0) with (fun _ : nat => 0) in E by (apply functional_extensionality; intro; ring). lra.
Qed.
Lemma utility_tangent_opposite m P C j : valid_market m -> (j < mJ m)%nat ->
  fst (utility_tangent m P C (fun _ => 1)) j + fst (utility_tangent m P C (fun _ => - 1)) j = 0.
Proof.
  intros V Hj. destruct (utility_tangent_plus m P C (fun _ => 1) (fun _ => - 1) j V Hj) as [E _].
  replace (fun _ : nat => 1 + - 1) with (fun _ : nat => 0) in E by (apply functional_extensionality; intro; ring).
  rewrite utility_tangent_zero in E by assumption. lra.
Qed.
Definition two_people (J : nat) : survey := mk_survey (Two true) J 2 (fun _ => / 2) (fun _ _ => 1) (fun i _ => INR i).
Lemma two_people_denominator m delta mu : valid_market m -> (mH m <> O -> forall h, (h < mH m)%nat -> 0 <= grho m h) ->
  survey_denominator (two_people (mJ m)) (fun i => nested_cell m None None delta (mu i)) = 1.
Proof.
  intros V R0. unfold survey_denominator, survey_sum, survey_weight. cbn [two_people s_I s_shape s_J s_weight s_agent_weight sumn].
  assert (E : forall i, sum_over (cells (Two true) (mJ m)) (fun c => truncate (1 * / 2 * nested_cell m None None delta (mu i) c)) = / 2).
  { intro i. rewrite (MicroProofs.so_ext _ _ (fun c => / 2 * nested_cell m None None delta (mu i) c)).
    - rewrite MicroProofs.so_scal. cbn [cells]. rewrite MicroProofs.so_map.
      transitivity (/ 2 * 1); [|ring]. f_equal. exact (single_rows m None delta (mu i)).
    - intros c Hc. rewrite MicroProofs.truncate_nonneg; [ring|].
      assert (X := cell_nonneg m None delta (mu i) V R0 c (cells_are _ _ _ Hc)).
      change (option_map (fun (b : nat -> bool) j => indR (b j)) None) with (@None (nat -> R)) in X. lra. }
  rewrite !E. lra.
Qed.
Lemma two_people_shares m delta mu : valid_market m -> forall j, (j < mJ m)%nat ->
  sumn 2 (fun i => / 2 * nested_cell_tangent m None None delta mu (fun _ => 0)
    (choice_utility_tangent m delta mu (fun _ => match i with O => 1 | _ => - 1 end)) (Single (Some j))) = 0.
Proof.
  intros V j Hj. cbn [sumn]. unfold nested_cell_tangent, choice_total_tangent, choice_utility_tangent. cbn [cell_tangent].
  set (P := choice_probabilities m (unrestricted None) delta mu). set (C := choice_conditionals m (unrestricted None) delta mu).
  assert (X := utility_tangent_opposite m P C j V Hj). unfold total_tangent.
  rewrite (sumn_ext (mJ m) _ (fun _ => 0)) by (intros; ring). rewrite sumn_zero. lra.
Qed.

(** One product in its nest: probabilities do not depend on the nesting parameter. *)
Definition alone : market := mk_market 1 1 (fun _ => O) false (fun _ => / 2) 1.
Lemma alone_valid : valid_market alone.
Proof. constructor; cbn; try lra; try lia; intros; try lra; try lia; reflexivity. Qed.
Lemma alone_half y : y < 1 -> choice_probabilities (nested_at alone (fun _ => true) y) (unrestricted None) (fun _ => 0) (fun _ => 0) 0 = / 2.
Proof.
  intro Hy. assert (Vy : valid_market (nested_at alone (fun _ => true) y)) by (constructor; cbn; try lra; try lia; intros; try lra; try lia; reflexivity).
  change (unrestricted None) with (choice_of true None None None).
  rewrite (choice_nested _ true None None None Vy) by (cbn; lia). cbn [nested_at with_rho alone mJ mH gid grho].
  unfold nested, within_group, group_share, group_weight, inclusive. cbn [sumn seq existsb remaining andb orb Nat.eqb indR].
  unfold utility. cbn [nested_at with_rho alone eps_scale]. replace ((0 + 0) / 1) with 0 by field. replace (0 / (1 - y)) with 0 by (unfold Rdiv; ring).
  rewrite exp_0. replace (0 + 1) with 1 by ring. unfold Rpower. rewrite ln_1, Rmult_0_r, exp_0. field.
Qed.
Lemma alone_shares : forall j, (j < 1)%nat ->
  sumn 2 (fun i => / 2 * nested_cell_tangent alone None None (fun _ => 0) (fun _ => 0) (fun _ => 0)
    (choice_nesting_tangent alone (fun _ => 0) (fun _ => 0) (fun h => indR true)) (Single (Some j))) = 0.
Proof.
  intros j Hj. assert (j = 0)%nat by lia. subst j. rewrite (sumn_ext 2 _ (fun _ => 0)); [apply sumn_zero|]. intros i _.
  assert (Z : nested_cell_tangent alone None None (fun _ => 0) (fun _ => 0) (fun _ => 0)
    (choice_nesting_tangent alone (fun _ => 0) (fun _ => 0) (fun h => indR true)) (Single (Some 0%nat)) = 0); [|rewrite Z; ring].
  apply (uniqueness_limite (fun y => choice_probabilities (nested_at alone (fun _ => true) y) (unrestricted None) (fun _ => 0) (fun _ => 0) 0) (/ 2)).
  - apply (choice_prob_nesting alone true None None None alone_valid ltac:(discriminate) (or_introl eq_refl) (fun _ => true) (/ 2) ltac:(reflexivity) ltac:(lra)
      ltac:(reflexivity) (fun _ _ => 0) (fun _ => 0) (fun _ => 0) (fun _ _ => dlim_const 0 (/ 2)) 0%nat ltac:(cbn; lia)).
  - apply (dlim_ext_near (fun _ => / 2) _ _ _ (/ 2)); [lra| |apply dlim_const]. intros y Hy. apply Rabs_def2 in Hy. symmetry. apply alone_half. lra.
Qed.
