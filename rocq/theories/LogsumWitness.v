(** Surpluses in double precision that are not finite. *)
From Coq Require Import Reals Lra Lia List Bool Arith ZArith Sorting.Permutation.
From Coq Require Import FunctionalExtensionality.
From Flocq Require Import Core.
From Verif Require Import Base FltModel RoundModel RoundSpec RoundProofs RoundWitness LogsumModel LogsumSpec.
Local Open Scope R_scope.

Lemma rlog_zero : rlog binary64 (Num 0) = NInf.
Proof. cbn [rlog]. destruct (Rlt_dec 0 0); [lra|]. destruct (Req_EM_T 0 0) as [_|F]; [reflexivity|contradiction (F eq_refl)]. Qed.
Lemma vanished r : - r <= -1076 -> numerator binary64 (Num (- r)) (Num 0) = NInf.
Proof.
  intro H. unfold numerator. rewrite rexp_low by exact H. unfold radd. cbn [fadd]. rewrite Rplus_0_r, round64_zero, rlog_zero. reflexivity.
Qed.

(** The first product is not in the choice set. *)
Lemma eliminated_inf : plain_numerator binary64 2 two (fun j => negb (Nat.eqb j 0)) (pair 2000 0) = NInf.
Proof.
  unfold plain_numerator. rewrite reduction_pair by lra. cbn [fneg].
  assert (E : rsum binary64 two (exp_utility binary64 2 (fun j => negb (Nat.eqb j 0)) (pair 2000 0) true) = Num 0).
  { unfold two. cbn [rsum]. unfold exp_utility. cbn [Nat.eqb negb]. rewrite reduction_pair by lra. cbn [pair Nat.eqb]. unfold rsub, fsub. cbn [fneg fadd].
    replace (0 + - (2000)) with (IZR (-2000)) by (cbn; ring). rewrite round64_Z by lia. rewrite rexp_low by lra. unfold radd. cbn [fadd]. rewrite Rplus_0_r. exact round64_zero. }
  rewrite E. apply vanished. lra.
Qed.

(** Nesting parameters that differ. *)
Lemma several_inf : nested_numerator binary64 2 (fun _ => true) (pair (12 * 128) 0) 2 Leaf two rhos true = NInf.
Proof.
  assert (M : min_rho rhos 2 = 0). { cbn [min_rho]. unfold rhos. cbn [Nat.eqb]. apply Rmin_right. lra. }
  assert (LS : nested_log_scale binary64 2 (pair (12 * 128) 0) 2 rhos = Num (- (1536))).
  { unfold nested_log_scale. rewrite M, reduction_pair by lra. unfold rsub, fsub. cbn [fneg fadd]. rewrite Ropp_0, Rplus_0_r, (round64_Z 1) by lia.
    unfold rmul. cbn [fmul]. replace (- (12 * 128) * 1) with (IZR (-1536)) by (cbn; lra). rewrite round64_Z by lia. f_equal. }
  assert (D : forall h, dampener binary64 rhos h = Num (if Nat.eqb h 0 then / 128 else 1)).
  { intro h. unfold dampener, rhos, rsub, fsub. cbn [fneg fadd]. destruct (Nat.eqb h 0).
    - replace (1 + - (1 - / 128)) with (1 * bpow radix2 (-7)) by (cbn; lra). rewrite round64 by lia. f_equal. cbn. lra.
    - rewrite Ropp_0, Rplus_0_r. apply (round64_Z 1). lia. }
  assert (X0 : exp_utility binary64 2 (fun _ => true) (pair (12 * 128) 0) true 0 = Num 1).
  { apply (exp_utility_top binary64 100 (rounds64 100 ltac:(lia)) exponential64 2 (pair (12 * 128) 0) _ 0 (12 * 128)); [lia|reflexivity|apply reduction_pair; lra|reflexivity]. }
  assert (X1 : exp_utility binary64 2 (fun _ => true) (pair (12 * 128) 0) true 1 = Num 0).
  { unfold exp_utility. rewrite reduction_pair by lra. cbn [Nat.eqb pair]. unfold rsub, fsub. cbn [fneg fadd].
    replace (0 + - (12 * 128)) with (IZR (-1536)) by (cbn; ring). rewrite round64_Z by lia. apply rexp_low. lra. }
  assert (W0 : weighted_inclusive binary64 2 (fun _ => true) (pair (12 * 128) 0) Leaf rhos 0 = Num 1).
  { unfold weighted_inclusive, inclusive. cbn [rsum]. rewrite X0, D. cbn [rlog Nat.eqb]. destruct (Rlt_dec 1 0); [lra|]. destruct (Req_EM_T 1 0); [lra|].
    cbn [Log binary64]. rewrite ln_1, round64_zero. unfold rmul. cbn [fmul]. rewrite Rmult_0_l, round64_zero.
    rewrite (rexp_zero binary64 100 (rounds64 100 ltac:(lia)) exponential64) by lia. reflexivity. }
  assert (W1 : weighted_inclusive binary64 2 (fun _ => true) (pair (12 * 128) 0) Leaf rhos 1 = Num 0).
  { unfold weighted_inclusive, inclusive. cbn [rsum]. rewrite X1, D, rlog_zero. cbn [Nat.eqb]. unfold rmul. cbn [fmul]. unfold finf.
    destruct (Rlt_dec 0 (-(1))); [lra|]. destruct (Rlt_dec (-(1)) 0); [reflexivity|lra]. }
  assert (S0 : surplus_weight binary64 2 (pair (12 * 128) 0) 2 rhos true 0 = Num 0).
  { unfold surplus_weight. rewrite M, reduction_pair by lra. unfold rhos. cbn [Nat.eqb fneg]. unfold rsub, fsub. cbn [fneg fadd].
    replace (1 - / 128 + - 0) with (IZR 127 * bpow radix2 (-7)) by (cbn; lra). rewrite round64 by lia. unfold rmul. cbn [fmul].
    replace (- (12 * 128) * (IZR 127 * bpow radix2 (-7))) with (IZR (-1524)) by (cbn; lra). rewrite round64_Z by lia. apply rexp_low. lra. }
  assert (S1 : surplus_weight binary64 2 (pair (12 * 128) 0) 2 rhos true 1 = Num 1).
  { unfold surplus_weight. rewrite M, reduction_pair by lra. unfold rhos. cbn [Nat.eqb fneg]. unfold rsub, fsub. cbn [fneg fadd]. rewrite Ropp_0, Rplus_0_r, round64_zero.
    unfold rmul. cbn [fmul]. rewrite Rmult_0_r, round64_zero. apply (rexp_zero binary64 100 (rounds64 100 ltac:(lia)) exponential64). lia. }
  unfold nested_numerator, two. cbn [rsum]. rewrite LS, W0, W1, S0, S1. unfold rmul. cbn [fmul]. rewrite Rmult_0_l, Rmult_0_r, round64_zero.
  unfold radd at 1. cbn [fadd]. rewrite Rplus_0_r, round64_zero. apply vanished. lra.
Qed.
Lemma scaled_pair : nested_utility binary64 (fun _ _ => Num 0) (fun j => j) rhos (pair 12 0) 0 = pair (12 * 128) 0.
Proof.
  extensionality j. unfold nested_utility, utility, radd, dampener, rhos, rsub, fsub, pair, rdiv. cbn [fneg].
  destruct (Nat.eqb j 0); cbn [fadd].
  - rewrite Rplus_0_r, (round64_Z 12) by lia. replace (1 + - (1 - / 128)) with (1 * bpow radix2 (-7)) by (cbn; lra). rewrite round64 by lia. cbn [fdiv].
    destruct (Req_EM_T _ 0) as [F|_]; [assert (P := bpow_gt_0 radix2 (-7)); lra|]. replace (12 / (1 * bpow radix2 (-7))) with (IZR 1536) by (cbn; lra). rewrite round64_Z by lia. f_equal. lra.
  - rewrite Rplus_0_r, round64_zero, Ropp_0, Rplus_0_r, (round64_Z 1) by lia. cbn [fdiv]. destruct (Req_EM_T 1 0); [lra|]. unfold Rdiv. rewrite Rmult_0_l. exact round64_zero.
Qed.
Lemma exact_several : nested_maximum 2 2 (fun j => j) rhos (fun k => if Nat.eqb k 0 then 12 else 0) = ln (2 + exp 12).
Proof.
  unfold nested_maximum. f_equal. cbn [sumn Nat.eqb]. unfold rhos. cbn [Nat.eqb]. rewrite !Rplus_0_l, Rplus_0_r, !ln_exp.
  replace ((1 - (1 - / 128)) * (12 / (1 - (1 - / 128)))) with 12 by field. replace ((1 - 0) * (0 / (1 - 0))) with 0 by field. rewrite exp_0. ring.
Qed.
Lemma log_accurate64 eps : 0 <= eps -> log_accurate binary64 eps.
Proof. intros H x Hx. cbn [Log binary64]. rewrite Rminus_diag_eq by reflexivity. rewrite Rabs_R0. apply Rmult_le_pos; [exact H|apply Rabs_pos]. Qed.
