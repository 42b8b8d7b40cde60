(** Double precision (binary64) arithmetic with exponentials and logarithms that are rounded correctly. *)
From Coq Require Import Reals Lra Lia List Bool Arith ZArith Sorting.Permutation.
From Coq Require Import FunctionalExtensionality.
From Flocq Require Import Core Relative.
From Verif Require Import FltModel RoundModel RoundSpec RoundProofs.
Import ListNotations.
Local Open Scope R_scope.

Definition fexp64 : Z -> Z := FLT_exp (-1074) 53.
Definition binary64 : arithmetic :=
  mk_arithmetic (Generic_fmt.round radix2 fexp64 ZnearestE) (IZR 9007199254740991 * bpow radix2 971) exp ln.

Lemma valid64 : Valid_exp fexp64.
Proof. apply FLT_exp_valid. unfold Prec_gt_0. lia. Qed.
Lemma format64 m e : (Z.abs m < 2 ^ 53)%Z -> (-1074 <= e)%Z -> generic_format radix2 fexp64 (IZR m * bpow radix2 e).
Proof.
  intros Hm He. apply generic_format_FLT. exists (Float radix2 m e); [reflexivity|exact Hm|exact He].
Qed.
Lemma exact64 m e : (Z.abs m < 2 ^ 53)%Z -> (-1074 <= e)%Z -> rnd binary64 (IZR m * bpow radix2 e) = IZR m * bpow radix2 e.
Proof. intros Hm He. apply round_generic; [apply valid_rnd_N|]. apply format64; assumption. Qed.
Lemma exact64_Z m : (Z.abs m < 2 ^ 53)%Z -> rnd binary64 (IZR m) = IZR m.
Proof. intro Hm. assert (E := exact64 m 0 Hm ltac:(lia)). cbn [bpow] in E. rewrite Rmult_1_r in E. exact E. Qed.

Lemma rounds64 N : (Z.of_nat N < 2 ^ 53)%Z -> rounds binary64 N.
Proof.
  intro HN. assert (V := valid64). split.
  - intros x y Hxy. apply round_le; [exact V|apply valid_rnd_N|exact Hxy].
  - intro x. apply round_generic; [apply valid_rnd_N|]. apply generic_format_round; [exact V|apply valid_rnd_N].
  - intros k Hk. rewrite INR_IZR_INZ. apply exact64_Z. lia.
  - intro x. apply round_NE_opp.
  - cbn [omega binary64]. rewrite INR_IZR_INZ. assert (1 <= bpow radix2 971) by (apply (bpow_le radix2 0 971); lia).
    assert (IZR (Z.of_nat N) <= 9007199254740991) by (apply IZR_le; lia).
    assert (9007199254740991 * 1 <= 9007199254740991 * bpow radix2 971) by (apply Rmult_le_compat_l; lra). lra.
Qed.
Lemma exponential64 : exponential binary64.
Proof.
  split.
  - intros x y [H| ->]; [left; apply exp_increasing, H|right; reflexivity].
  - intro x. left. apply exp_pos.
  - exact exp_0.
Qed.
Lemma logarithm64 : logarithm binary64.
Proof.
  split; [|exact ln_1]. intros x y Hx [H| ->]; [left; apply ln_increasing; assumption|right; reflexivity].
Qed.

(** Underflow and overflow of exponentials. *)
Lemma exp_large n x : (0 <= n)%Z -> IZR n <= x -> bpow radix2 n <= exp x.
Proof.
  intros Hn Hx. apply Rle_trans with (exp (IZR n)).
  - clear Hx. rewrite <- (Z2Nat.id n Hn). generalize (Z.to_nat n). clear. intro m. induction m as [|m IH].
    + change (IZR (Z.of_nat 0)) with 0. rewrite exp_0. cbn. lra.
    + rewrite Nat2Z.inj_succ. unfold Z.succ. rewrite plus_IZR, exp_plus, bpow_plus.
      assert (E := exp_ineq1 1 ltac:(lra)). assert (P := bpow_gt_0 radix2 (Z.of_nat m)). change (bpow radix2 1) with 2.
      apply Rmult_le_compat; lra.
  - destruct Hx as [H|H]; [left; apply exp_increasing, H|right; rewrite H; reflexivity].
Qed.
Lemma exp_underflow x : x <= -1075 - 1 -> rnd binary64 (exp x) = 0.
Proof.
  intro Hx. assert (V := valid64). assert (P := exp_pos x).
  assert (S : exp x <= bpow radix2 (-1076)).
  { replace x with (- - x) by ring. rewrite exp_Ropp. change (-1076)%Z with (- (1076))%Z. rewrite bpow_opp. apply Rinv_le_contravar; [apply bpow_gt_0|].
    apply exp_large; [lia|lra]. }
  destruct (mag radix2 (exp x)) as (e & He). specialize (He ltac:(lra)). rewrite Rabs_pos_eq in He by lra.
  cbn [rnd binary64]. apply (round_N_small radix2 fexp64 _ (exp x) e); [rewrite Rabs_pos_eq by lra; exact He|].
  assert (L : (e - 1 <= -1076)%Z). { apply (le_bpow radix2). eapply Rle_trans; [apply He|exact S]. }
  unfold fexp64, FLT_exp. lia.
Qed.
Lemma exp_overflow x : 1025 <= x -> round binary64 (Num (exp x)) = PInf.
Proof.
  intro Hx. assert (V := valid64). unfold round. assert (Q : omega binary64 < rnd binary64 (exp x)).
  { apply Rlt_le_trans with (bpow radix2 1025).
    - cbn [omega binary64]. change (bpow radix2 1025) with (bpow radix2 (54 + 971)). rewrite bpow_plus. apply Rmult_lt_compat_r; [apply bpow_gt_0|].
      change (bpow radix2 54) with 18014398509481984. lra.
    - assert (E := exact64 1 1025 ltac:(lia) ltac:(lia)). rewrite Rmult_1_l in E. rewrite <- E. cbn [rnd binary64]. apply round_le; [exact V|apply valid_rnd_N|].
      apply exp_large; [lia|exact Hx]. }
  destruct (Rlt_dec _ _); [reflexivity|contradiction].
Qed.
Lemma rexp_low r : r <= -1076 -> rexp binary64 (Num r) = Num 0.
Proof.
  intro H. cbn [rexp]. unfold round. cbn [Exp binary64]. change (exp) with (Exp binary64). 
  assert (E := exp_underflow r ltac:(lra)). change (rnd binary64 (Exp binary64 r) = 0) in E. rewrite E.
  assert (O := omega_nonneg binary64 1 (rounds64 1 ltac:(lia))). destruct (Rlt_dec _ _); [lra|]. destruct (Rlt_dec _ _); [lra|]. reflexivity.
Qed.
Lemma rexp_high r : 1025 <= r -> rexp binary64 (Num r) = PInf.
Proof. intro H. cbn [rexp Exp binary64]. apply exp_overflow, H. Qed.
Lemma round64 m e : (Z.abs m < 2 ^ 53)%Z -> (-1074 <= e <= 0)%Z -> round binary64 (Num (IZR m * bpow radix2 e)) = Num (IZR m * bpow radix2 e).
Proof.
  intros Hm He. unfold round. rewrite (exact64 m e Hm (proj1 He)).
  assert (B1 : bpow radix2 e <= 1) by (apply (bpow_le radix2 e 0); lia). assert (B0 := bpow_gt_0 radix2 e).
  assert (B2 : 1 <= bpow radix2 971) by (apply (bpow_le radix2 0 971); lia).
  assert (M : - 9007199254740991 <= IZR m <= 9007199254740991) by (split; apply IZR_le; lia).
  assert (X : Rabs (IZR m * bpow radix2 e) <= omega binary64).
  { rewrite Rabs_mult, (Rabs_pos_eq (bpow radix2 e)) by lra. cbn [omega binary64]. apply Rmult_le_compat; [apply Rabs_pos|lra|apply Rabs_le; lra|lra]. }
  apply Rabs_le_inv in X || (assert (X1 := Rle_abs (IZR m * bpow radix2 e)); assert (X2 := Rle_abs (- (IZR m * bpow radix2 e))); rewrite Rabs_Ropp in X2).
  destruct (Rlt_dec _ _); [lra|]. destruct (Rlt_dec _ _); [lra|]. reflexivity.
Qed.
Lemma round64_Z m : (Z.abs m < 2 ^ 53)%Z -> round binary64 (Num (IZR m)) = Num (IZR m).
Proof. intro Hm. assert (E := round64 m 0 Hm ltac:(lia)). cbn [bpow] in E. rewrite Rmult_1_r in E. exact E. Qed.

Lemma round64_zero : round binary64 (Num 0) = Num 0.
Proof. exact (round64_Z 0 ltac:(lia)). Qed.

(** Utilities of two products. *)
Definition pair (a b : R) (j : nat) : flt := if Nat.eqb j 0 then Num a else Num b.
Definition two : tree := Node (Leaf 0) (Leaf 1).
Lemma two_adds : adds_up two 2.
Proof. apply Permutation_refl. Qed.
Lemma one_adds : adds_up (Leaf 0) 1.
Proof. apply Permutation_refl. Qed.

Lemma reduction_pair a : 0 < a -> reduction 2 (pair a 0) = Num a.
Proof.
  intro H. unfold reduction. cbn [maximum pair Nat.eqb]. unfold fmax. cbn [fnan orb fltb]. unfold rltb.
  destruct (Rlt_dec a 0); [lra|]. destruct (Rlt_dec 0 a); [reflexivity|lra].
Qed.

(** The first product is not in the choice set. *)
Lemma excluded_nan : probability binary64 2 two (fun j => negb (Nat.eqb j 0)) true (pair 2000 0) true 1 = NaN.
Proof.
  assert (E : exp_utility binary64 2 (fun j => negb (Nat.eqb j 0)) (pair 2000 0) true 1 = Num 0).
  { unfold exp_utility. rewrite reduction_pair by lra. cbn [Nat.eqb negb pair]. unfold rsub, fsub. cbn [fneg fadd].
    replace (0 + - (2000)) with (IZR (-2000)) by (cbn; ring). rewrite round64_Z by lia. apply rexp_low. lra. }
  unfold probability, outside_scale, two. rewrite reduction_pair by lra. cbn [rsum fneg]. rewrite E, rexp_low by lra.
  unfold exp_utility. cbn [Nat.eqb negb]. unfold radd. cbn [fadd]. rewrite Rplus_0_r, round64_zero. cbn [fadd]. rewrite Rplus_0_r, round64_zero.
  unfold rdiv. cbn [fdiv]. destruct (Req_EM_T 0 0) as [_|F]; [|contradiction (F eq_refl)]. unfold finf. destruct (Rlt_dec 0 0); [lra|]. reflexivity.
Qed.

(** The outside option is not in the choice set. *)
Lemma eliminated_nan : probability binary64 1 (Leaf 0) (fun _ => true) false (fun _ => Num (-2000)) true 0 = NaN.
Proof.
  assert (Er : reduction 1 (fun _ => Num (-2000)) = Num 0).
  { unfold reduction. cbn [maximum]. unfold fmax. cbn [fnan orb fltb]. unfold rltb. destruct (Rlt_dec 0 (-2000)); [lra|reflexivity]. }
  assert (E : exp_utility binary64 1 (fun _ => true) (fun _ => Num (-2000)) true 0 = Num 0).
  { unfold exp_utility. rewrite Er. unfold rsub, fsub. cbn [fneg fadd]. rewrite Ropp_0, Rplus_0_r, round64_Z by lia. apply rexp_low. lra. }
  unfold probability, outside_scale. cbn [rsum]. rewrite E. unfold radd. cbn [fadd]. rewrite Rplus_0_r, round64_zero.
  unfold rdiv. cbn [fdiv]. destruct (Req_EM_T 0 0) as [_|F]; [|contradiction (F eq_refl)]. unfold finf. destruct (Rlt_dec 0 0); [lra|]. reflexivity.
Qed.

(** Without scaling. *)
Lemma unsafe_nan : probability binary64 1 (Leaf 0) (fun _ => true) true (fun _ => Num 2000) false 0 = NaN.
Proof.
  unfold probability, outside_scale. cbn [rsum]. unfold exp_utility. rewrite rexp_high by lra. reflexivity.
Qed.

(** Products of two groups with nesting parameters 1 - 1/128 and zero, and with utilities 12 and zero, which are 1536 and
    zero after dividing by dampeners. *)
Definition rhos (h : nat) : R := if Nat.eqb h 0 then 1 - / 128 else 0.
Lemma several_nan : nested_probability binary64 2 (fun _ => true) true (pair (12 * 128) 0) (fun j => j) Leaf two rhos true 0 = NaN.
Proof.
  assert (D : dampener binary64 rhos 1 = Num 1).
  { unfold dampener, rhos. cbn [Nat.eqb]. unfold rsub, fsub. cbn [fneg fadd]. rewrite Ropp_0, Rplus_0_r. apply (round64_Z 1). lia. }
  assert (X : exp_utility binary64 2 (fun _ => true) (pair (12 * 128) 0) true 1 = Num 0).
  { unfold exp_utility. rewrite reduction_pair by lra. cbn [Nat.eqb pair]. unfold rsub, fsub. cbn [fneg fadd].
    replace (0 + - (12 * 128)) with (IZR (-1536)) by (cbn; ring). rewrite round64_Z by lia. apply rexp_low. lra. }
  assert (W : weighted_inclusive binary64 2 (fun _ => true) (pair (12 * 128) 0) Leaf rhos 1 = Num 0).
  { unfold weighted_inclusive, inclusive. cbn [rsum]. rewrite X, D. cbn [rlog]. destruct (Rlt_dec 0 0); [lra|]. destruct (Req_EM_T 0 0) as [_|F]; [|contradiction (F eq_refl)].
    unfold rmul. cbn [fmul]. unfold finf. destruct (Rlt_dec 0 (-(1))); [lra|]. destruct (Rlt_dec (-(1)) 0); [reflexivity|lra]. }
  assert (S : scale_weight binary64 2 (pair (12 * 128) 0) rhos true 0 1 = PInf).
  { unfold scale_weight. rewrite reduction_pair by lra. unfold rhos. cbn [Nat.eqb fneg]. unfold rsub, fsub. cbn [fneg fadd].
    replace (0 + - (1 - / 128)) with (IZR (-127) * bpow radix2 (-7)) by (cbn; lra). rewrite round64 by lia.
    unfold rmul. cbn [fmul]. replace (- (12 * 128) * (IZR (-127) * bpow radix2 (-7))) with (IZR 1524) by (cbn; lra). rewrite round64_Z by lia. apply rexp_high. lra. }
  assert (M : marginal binary64 2 (fun _ => true) true (pair (12 * 128) 0) Leaf two rhos true 0 = NaN).
  { unfold marginal, two. cbn [rsum]. rewrite S, W. set (w := weighted_inclusive _ _ _ _ _ _ _). set (z := nested_scale _ _ _ _ _ _). set (y := rmul binary64 (scale_weight _ _ _ _ _ 0 0) w).
    assert (E : rmul binary64 PInf (Num 0) = NaN) by (unfold rmul; cbn [fmul]; unfold finf; destruct (Rlt_dec 0 0); [lra|]; reflexivity).
    rewrite E. destruct y, z, w; reflexivity. }
  unfold nested_probability. rewrite M. unfold rmul. destruct (conditional _ _ _ _ _ _ _); reflexivity.
Qed.

(** A share that underflows, without a lower bound. *)
Lemma unbounded_inf : next binary64 1 (Leaf 0) (Leaf 0) true (fun _ _ => Num 0) (fun _ => Num 1) (fun _ => Num (/ 2)) None None (fun _ => Num (-2000)) 0 = PInf.
Proof.
  assert (U : forall i j, utility binary64 (fun _ _ => Num 0) (fun _ => Num (-2000)) i j = Num (-2000)).
  { intros i j. unfold utility, radd. cbn [fadd]. rewrite Rplus_0_r. apply round64_Z. lia. }
  assert (Er : reduction 1 (utility binary64 (fun _ _ => Num 0) (fun _ => Num (-2000)) 0) = Num 0).
  { unfold reduction. cbn [maximum]. rewrite U. unfold fmax. cbn [fnan orb fltb]. unfold rltb. destruct (Rlt_dec 0 (-2000)); [lra|reflexivity]. }
  assert (P : choice binary64 1 (Leaf 0) true (fun _ _ => Num 0) (fun _ => Num (-2000)) 0 0 = Num 0).
  { unfold choice, probability, outside_scale. cbn [rsum]. unfold exp_utility. rewrite Er, U. unfold rsub, fsub. cbn [fneg fadd].
    rewrite Ropp_0, Rplus_0_r, round64_Z by lia. rewrite rexp_low by lra.
    rewrite (rexp_zero binary64 1 (rounds64 1 ltac:(lia)) exponential64) by lia. unfold radd. cbn [fadd]. rewrite Rplus_0_r, (round64_Z 1) by lia.
    unfold rdiv. cbn [fdiv]. destruct (Req_EM_T 1 0); [lra|]. unfold Rdiv. rewrite Rmult_0_l. apply round64_zero. }
  unfold next, log_share, market_share. cbn [rsum clip_below clip_above]. rewrite P. unfold rmul. cbn [fmul]. rewrite Rmult_0_l, round64_zero.
  cbn [rlog]. destruct (Rlt_dec 0 0); [lra|]. destruct (Req_EM_T 0 0) as [_|F]; [|contradiction (F eq_refl)].
  destruct (Rlt_dec (/ 2) 0); [lra|]. destruct (Req_EM_T (/ 2) 0); [lra|].
  assert (L : - INR 1 <= Log binary64 (/ 2) <= INR 1).
  { cbn [INR Log binary64]. rewrite ln_Rinv by lra. assert (ln 2 <= 1). { assert (E2 := exp_ineq1 1 ltac:(lra)). rewrite <- (ln_exp 1). left. apply ln_increasing; lra. }
    assert (0 < ln 2) by (rewrite <- ln_1; apply ln_increasing; lra). lra. }
  destruct (round_within binary64 2001 (rounds64 2001 ltac:(lia)) 1 _ ltac:(lia) L) as (-> & B & _). unfold radd. cbn [fadd].
  destruct (round_within binary64 2001 (rounds64 2001 ltac:(lia)) 2001 (-2000 + rnd binary64 (Log binary64 (/ 2))) ltac:(lia)) as (-> & _).
  - rewrite INR_IZR_INZ. cbn [INR] in B. change (Z.of_nat 2001) with 2001%Z. lra.
  - reflexivity.
Qed.

(** In terms of utilities before dividing by dampeners. *)
Lemma several_choice_nan : nested_choice binary64 2 (fun _ _ => Num 0) (fun j => j) Leaf two rhos true (pair 12 0) 0 0 = NaN.
Proof.
  assert (E : nested_utility binary64 (fun _ _ => Num 0) (fun j => j) rhos (pair 12 0) 0 = pair (12 * 128) 0).
  { extensionality j. unfold nested_utility, utility, radd, dampener, rhos, rsub, fsub, pair, rdiv. cbn [fneg].
    destruct (Nat.eqb j 0); cbn [fadd].
    - rewrite Rplus_0_r, (round64_Z 12) by lia. replace (1 + - (1 - / 128)) with (1 * bpow radix2 (-7)) by (cbn; lra). rewrite round64 by lia. cbn [fdiv].
      destruct (Req_EM_T _ 0) as [F|_]; [assert (P := bpow_gt_0 radix2 (-7)); lra|]. replace (12 / (1 * bpow radix2 (-7))) with (IZR 1536) by (cbn; lra). rewrite round64_Z by lia. f_equal. lra.
    - rewrite Rplus_0_r, round64_zero, Ropp_0, Rplus_0_r, (round64_Z 1) by lia. cbn [fdiv]. destruct (Req_EM_T 1 0); [lra|]. unfold Rdiv. rewrite Rmult_0_l. exact round64_zero. }
  unfold nested_choice. rewrite E. exact several_nan.
Qed.

Lemma accurate64 : accurate binary64 (bpow radix2 (-53)) (bpow radix2 (-1075)).
Proof.
  assert (P := bpow_gt_0 radix2 (-1075)). assert (P' := bpow_gt_0 radix2 (-53)). split.
  - intro x. destruct (error_N_FLT radix2 (-1074) 53 ltac:(lia) (fun z => negb (Z.even z)) x) as (e & t & He & Ht & _ & E). cbn [rnd binary64].
    change (Generic_fmt.round radix2 fexp64 ZnearestE x) with (Generic_fmt.round radix2 (FLT_exp (-1074) 53) ZnearestE x). rewrite E.
    replace (x * (1 + e) + t - x) with (e * x + t) by ring. eapply Rle_trans; [apply Rabs_triang|]. rewrite Rabs_mult.
    assert (H1 : / 2 * bpow radix2 (-53 + 1) = bpow radix2 (-53)) by (rewrite bpow_plus; change (bpow radix2 1) with 2; field).
    assert (H2 : / 2 * bpow radix2 (-1074) = bpow radix2 (-1075)) by (change (-1074)%Z with (-1075 + 1)%Z; rewrite bpow_plus; change (bpow radix2 1) with 2; field).
    assert (He' : Rabs e <= bpow radix2 (-53)) by (rewrite <- H1; exact He). assert (Ht' : Rabs t <= bpow radix2 (-1075)) by (rewrite <- H2; exact Ht). apply Rplus_le_compat; [apply Rmult_le_compat_r; [apply Rabs_pos|exact He']|exact Ht'].
  - intro x. cbn [Exp binary64]. rewrite Rminus_diag_eq by reflexivity. rewrite Rabs_R0. apply Rmult_le_pos; [lra|left; apply exp_pos].
  - change (/ 8) with (bpow radix2 (-3)). apply bpow_le. lia.
  - split; [lra|]. apply bpow_le. lia.
Qed.

(** Data of a market with the default lower bound on shares. *)
Lemma default_log_bounded : log_bounded binary64 1200 (Num (/ 10 ^ 300)).
Proof.
  assert (P : 0 < 10 ^ 300) by (apply pow_lt; lra). exists (/ 10 ^ 300). split; [reflexivity|]. split; [apply Rinv_0_lt_compat, P|].
  cbn [Log binary64]. rewrite ln_Rinv by exact P. rewrite ln_pow by lra.
  assert (L0 : 0 <= ln 10) by (rewrite <- ln_1; left; apply ln_increasing; lra).
  assert (L1 : ln 10 <= 4).
  { rewrite <- (ln_exp 4). left. apply ln_increasing; [lra|]. apply Rlt_le_trans with 16; [lra|]. exact (exp_large 4 4 ltac:(lia) ltac:(lra)). }
  rewrite !INR_IZR_INZ. change (Z.of_nat 300) with 300%Z. change (Z.of_nat 1200) with 1200%Z. lra.
Qed.
Lemma half_log_bounded : log_bounded binary64 1 (Num (/ 2)).
Proof.
  exists (/ 2). split; [reflexivity|]. split; [lra|]. cbn [INR Log binary64]. rewrite ln_Rinv by lra.
  assert (ln 2 <= 1). { assert (E2 := exp_ineq1 1 ltac:(lra)). rewrite <- (ln_exp 1). left. apply ln_increasing; lra. }
  assert (0 < ln 2) by (rewrite <- ln_1; apply ln_increasing; lra). lra.
Qed.
Lemma default_market N : (1 <= N)%nat ->
  market_data binary64 N 1 1 0 1 1 1200 (Leaf 0) (fun _ _ => Num 0) (fun _ => Num 1) (fun _ => Num (/ 2)) (Some (Num (/ 10 ^ 300))) None.
Proof.
  intro HN. split.
  - exact one_adds.
  - intros i j _ _. exists 0. split; [reflexivity|]. cbn. lra.
  - intros i _. exists 1. split; [reflexivity|]. cbn. lra.
  - intros j _. exact half_log_bounded.
  - exists (Num (/ 10 ^ 300)). split; [reflexivity|exact default_log_bounded].
  - intros b E. discriminate.
  - change (ln 1 <= INR 1200). rewrite ln_1. apply pos_INR.
  - exact HN.
Qed.
