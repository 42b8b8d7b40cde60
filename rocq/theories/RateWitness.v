(** A market with one product, one agent and a share of one half, in double precision. *)
From Coq Require Import Reals Lra Lia List Bool Arith ZArith.
From Flocq Require Import Core.
From Verif Require Import Base FltModel IterModel ConvModel RoundModel RoundSpec RoundWitness DemandModel DemandSpec RateSpec RateProofs RateIter RateConverge.
Import ListNotations.
Local Open Scope R_scope.

Lemma accurate_log64 : accurate_log binary64 (bpow radix2 (-53)).
Proof.
  intros r _. cbn [Log binary64]. rewrite Rminus_diag_eq by reflexivity. rewrite Rabs_R0. apply Rmult_le_pos; [left; apply bpow_gt_0|apply Rabs_pos].
Qed.
Lemma one_share x : share_of 1 1 (fun _ => 1) (fun _ _ => 0) (fun _ => x) 0 = exp x / (1 + exp x).
Proof. unfold share_of, chosen, logit, all_goods. cbn [sumn indR]. rewrite Rplus_0_r, !Rplus_0_l. ring. Qed.
Lemma half_share : share_of 1 1 (fun _ => 1) (fun _ _ => 0) (fun _ => 0) 0 = / 2.
Proof. rewrite one_share, exp_0. lra. Qed.
Lemma quarter_wavers : wavering 1 1 (fun _ => 1) (fun _ _ => 0) (fun _ => 0) 0 = / 4.
Proof. unfold wavering, outside_chosen, chosen, logit, all_goods. cbn [sumn indR]. rewrite !Rplus_0_r, exp_0. lra. Qed.
Lemma eps64 : 0 < bpow radix2 (-53) /\ bpow radix2 (-53) * 9000000000000000 <= 1.
Proof.
  split; [apply bpow_gt_0|]. assert (E : bpow radix2 (-53) * bpow radix2 53 = 1) by (rewrite <- bpow_plus; reflexivity).
  assert (B : bpow radix2 53 = 9007199254740992) by reflexivity. rewrite B in E. assert (P := bpow_gt_0 radix2 (-53)). lra.
Qed.
Lemma exp_two : / 9 <= exp (- (2)) < 1.
Proof.
  assert (E3 := exp_le_3). assert (P := exp_pos 1). assert (E : exp 2 = exp 1 * exp 1) by (rewrite <- exp_plus; f_equal; lra).
  assert (exp 1 * exp 1 <= 3 * 3) by (apply Rmult_le_compat; lra). split.
  - rewrite exp_Ropp. apply Rinv_le_contravar; [apply exp_pos|lra].
  - rewrite <- exp_0. apply exp_increasing. lra.
Qed.
Lemma rate_half : / 2 <= rate (/ 2) 2 <= 35 / 36.
Proof. unfold rate. assert (E := exp_two). lra. Qed.
Lemma many_steps : rate (/ 2) 2 ^ 700 <= / 268435456.
Proof.
  assert (K := rate_half). apply Rle_trans with ((35 / 36) ^ 700); [apply pow_incr; lra|].
  replace 700%nat with (25 * 28)%nat by reflexivity. rewrite pow_mult.
  assert (H : 0 <= (35 / 36) ^ 25 <= / 2).
  { split; [apply pow_le; lra|]. unfold Rdiv. rewrite Rpow_mult_distr, <- Rinv_pow by lra.
    assert (Z : 2 * 35 ^ 25 <= 36 ^ 25) by (rewrite !pow_IZR, <- mult_IZR; apply IZR_le; vm_compute; discriminate).
    assert (P : 0 < 36 ^ 25) by (apply pow_lt; lra). apply Rmult_le_reg_r with (36 ^ 25); [exact P|]. rewrite Rmult_assoc, Rinv_l by lra. lra. }
  apply Rle_trans with ((/ 2) ^ 28); [apply pow_incr; exact H|].
  rewrite <- Rinv_pow by lra. right. f_equal. rewrite pow_IZR. reflexivity.
Qed.
Definition half_noise : R := step_noise 1 1 3 0 1 1200 (sumn 1 (fun _ => 1)) (bpow radix2 (-53)) (/ 200).
Lemma noise_small : 0 <= half_noise <= / 100000000000.
Proof.
  assert (E := eps64). unfold half_noise, step_noise, share_noise. cbn [sumn]. rewrite (INR_IZR_INZ 1200). change (Z.of_nat 1200) with 1200%Z.
  cbn [Nat.add INR]. set (e := bpow radix2 (-53)) in *. split; lra.
Qed.
