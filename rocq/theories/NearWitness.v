(** Probabilities in double precision that are zero although exact ones are not, and data of an example. *)
From Coq Require Import Reals Lra Lia List Bool Arith ZArith Sorting.Permutation.
From Coq Require Import FunctionalExtensionality.
From Flocq Require Import Core.
From Verif Require Import Base FltModel RoundModel RoundSpec RoundProofs RoundNested RoundWitness LogsumModel LogsumSpec LogsumWitness NearSpec.
Local Open Scope R_scope.

Definition high_rho : R := 1 - / 2048.
Lemma separate_nests : nests 2 2 (fun j => j) Leaf two.
Proof.
  split.
  - intros j Hj. exact Hj.
  - intros h Hh. destruct h as [|[|h]]; [apply Permutation_refl|apply Permutation_refl|lia].
  - apply two_adds.
Qed.
Lemma high_pair : nested_utility binary64 (fun _ _ => Num 0) (fun j => j) (fun _ => high_rho) (pair 1 0) 0 = pair 2048 0.
Proof.
  extensionality j. unfold nested_utility, utility, radd, dampener, high_rho, rsub, fsub, pair, rdiv. cbn [fneg fadd]. replace (1 + - (1 - / 2048)) with (1 * bpow radix2 (-11)) by (cbn; lra).
  rewrite round64 by lia. assert (P := bpow_gt_0 radix2 (-11)). destruct (Nat.eqb j 0); cbn [fadd].
  - rewrite Rplus_0_r, (round64_Z 1) by lia. cbn [fdiv]. destruct (Req_EM_T _ 0) as [F|_]; [lra|]. replace (1 / (1 * bpow radix2 (-11))) with (IZR 2048) by (cbn; lra). apply round64_Z. lia.
  - rewrite Rplus_0_r, round64_zero. cbn [fdiv]. destruct (Req_EM_T _ 0) as [F|_]; [lra|]. unfold Rdiv. rewrite Rmult_0_l. exact round64_zero.
Qed.
Lemma vanishing_choice : nested_choice binary64 2 (fun _ _ => Num 0) (fun j => j) Leaf two (fun _ => high_rho) false (pair 1 0) 0 1 = Num 0.
Proof.
  unfold nested_choice. rewrite high_pair.
  assert (X1 : exp_utility binary64 2 (fun _ => true) (pair 2048 0) true 1 = Num 0).
  { unfold exp_utility. rewrite reduction_pair by lra. cbn [Nat.eqb pair]. unfold rsub, fsub. cbn [fneg fadd].
    replace (0 + - (2048)) with (IZR (-2048)) by (cbn; ring). rewrite round64_Z by lia. apply rexp_low. lra. }
  assert (C : conditional binary64 2 (fun _ => true) (pair 2048 0) (fun j => j) Leaf 1 = Num 0).
  { unfold conditional, inclusive. cbn [rsum]. rewrite X1. unfold rdiv. cbn [fdiv]. destruct (Req_EM_T 0 0) as [_|F]; [|contradiction (F eq_refl)].
    unfold finf. destruct (Rlt_dec 0 0); [lra|]. reflexivity. }
  assert (HE1 : Exp binary64 (INR 1) <= INR 3) by (cbn [Exp binary64]; replace (INR 1) with 1 by reflexivity; replace (INR 3) with 3 by (cbn; ring); exact exp_le_3).
  assert (HL1 : Log binary64 (INR 2) <= INR 1).
  { cbn [Log binary64]. replace (INR 2) with 2 by (cbn; ring). replace (INR 1) with 1 by reflexivity. rewrite <- (ln_exp 1). assert (T := exp_ineq1 1 ltac:(lra)). left. apply ln_increasing; lra. }
  destruct (marginal_upto binary64 100 (rounds64 100 ltac:(lia)) exponential64 logarithm64 2 2 1 3 (pair 2048 0) (fun j => j) Leaf two (fun _ => high_rho) false) with (h := 1%nat) as (m & Em & _).
  all: try assumption; try lia.
  - intros j Hj. unfold pair. destruct (Nat.eqb j 0); eauto.
  - exact separate_nests.
  - intros h Hh. unfold high_rho. lra.
  - unfold nested_probability. rewrite C, Em. unfold rmul. cbn [fmul]. rewrite Rmult_0_l. exact round64_zero.
Qed.
Lemma exact_vanishing : / 5 <= exact_probability 2 2 (fun j => j) high_rho (divided high_rho (fun j => if Nat.eqb j 0 then 1 else 0)) 1.
Proof.
  unfold exact_probability, exact_within, exact_group, powered_sum, inclusive_sum, divided, high_rho. cbn [sumn Nat.eqb].
  replace (1 - (1 - / 2048)) with (/ 2048) by ring. replace (1 / / 2048) with 2048 by field. replace (0 / / 2048) with 0 by field. rewrite exp_0. rewrite !Rplus_0_l, !Rplus_0_r.
  rewrite ln_1, Rmult_0_r, exp_0, ln_exp. replace (/ 2048 * 2048) with 1 by field. assert (T := exp_le_3). assert (T2 := exp_pos 1).
  replace (1 / 1 * (1 / (1 + (exp 1 + 1)))) with (/ (1 + (exp 1 + 1))) by (field; lra). apply Rinv_le_contravar; lra.
Qed.

(** One group of two products. *)
Lemma one_nest : nests 2 1 (fun _ => 0%nat) (fun _ => two) (Leaf 0).
Proof.
  split.
  - intros j Hj. lia.
  - intros h Hh. destruct h as [|h]; [apply Permutation_refl|lia].
  - apply one_adds.
Qed.
Lemma moderate : bpow radix2 (-1075) <= bpow radix2 (-53) * exp (- (2 * INR 2 + INR 2 + 5)).
Proof.
  replace (2 * INR 2 + INR 2 + 5) with (INR 11 * 1) by (cbn; ring).
  assert (E : exp (INR 11 * 1) = exp 1 ^ 11).
  { clear. generalize 11%nat. intro n. induction n as [|n IH]; [cbn; rewrite Rmult_0_l; apply exp_0|]. rewrite S_INR, Rmult_plus_distr_r, exp_plus, IH. cbn [pow]. rewrite !Rmult_1_l. ring. }
  assert (L : exp 1 ^ 11 <= bpow radix2 22).
  { apply Rle_trans with (3 ^ 11); [apply pow_incr; split; [left; apply exp_pos|exact exp_le_3]|]. cbn. lra. }
  rewrite exp_Ropp, E. apply Rle_trans with (bpow radix2 (-53) * bpow radix2 (-22)); [rewrite <- bpow_plus; apply bpow_le; lia|].
  apply Rmult_le_compat_l; [apply bpow_ge_0|]. change (-22)%Z with (- (22))%Z. rewrite bpow_opp. apply Rinv_le_contravar; [apply pow_lt, exp_pos|exact L].
Qed.
