(** How fast the contraction converges with nesting. *)
From Coq Require Import Reals Lra Lia List Bool Arith.
From Verif Require Import Base DemandModel DemandSpec DemandProofs DemandShares DemandElim RateSpec RateProofs RateConverge RateNestSpec.
Local Open Scope R_scope.

Lemma faster W e : 0 <= W -> 0 < e <= 1 -> e / (1 + W) * (1 + (1 - e) / (1 + W)) <= / (1 + / e * W).
Proof.
  intros HW He. replace (/ (1 + / e * W)) with (e / (e + W)) by (field; lra).
  unfold Rdiv. rewrite Rmult_assoc. apply Rmult_le_compat_l; [lra|].
  apply Rmult_le_reg_r with (e + W); [lra|]. rewrite Rinv_l by lra.
  apply Rmult_le_reg_r with ((1 + W) * (1 + W)); [apply Rmult_lt_0_compat; lra|].
  replace (/ (1 + W) * (1 + (1 - e) * / (1 + W)) * (e + W) * ((1 + W) * (1 + W))) with ((1 + W + (1 - e)) * (e + W)) by (field; lra). nra.
Qed.
Lemma slower W e : 0 <= W -> 0 < e <= 1 -> / (1 + e * W) <= / e / (1 + W) * (1 - (1 - e) / (1 + W)).
Proof.
  intros HW He. assert (0 <= e * W) by (apply Rmult_le_pos; lra).
  apply Rmult_le_reg_r with (1 + e * W); [lra|]. rewrite Rinv_l by lra.
  apply Rmult_le_reg_r with (e * ((1 + W) * (1 + W))); [apply Rmult_lt_0_compat; [lra|apply Rmult_lt_0_compat; lra]|].
  replace (/ e / (1 + W) * (1 - (1 - e) / (1 + W)) * (1 + e * W) * (e * ((1 + W) * (1 + W)))) with ((W + e) * (1 + e * W)) by (field; lra).
  assert (0 <= W * ((1 - e) * (1 - e))) by (apply Rmult_le_pos; [lra|nra]). nra.
Qed.

Section Nested.
  Variables (J H : nat) (grp : nat -> nat) (r : nat -> R) (V D : nat -> R) (t : R) (h : nat).
  Hypothesis Hr1 : forall h, (h < H)%nat -> r h < 1.
  Hypothesis Ht : 0 <= t.
  Hypothesis Hh : (h < H)%nat.
  Hypothesis Hr0 : 0 <= r h.
  Hypothesis Hex : exists k, (k < J)%nat /\ grp k = h.
  Let W := sumn H (group_weight J grp r all_goods D).

  Lemma has_group : existsb (fun k => all_goods k && Nat.eqb (grp k) h) (seq 0 J) = true.
  Proof using Hex. destruct Hex as (k & Hk & E). apply existsb_intro with k; [exact Hk|]. rewrite E, Nat.eqb_refl. reflexivity. Qed.

  Lemma unit_exp : 0 < exp (- t) <= 1.
  Proof using Ht. split; [apply exp_pos|]. rewrite <- exp_0. apply exp_le. lra. Qed.

  Lemma residual_above : (forall k, (k < J)%nat -> V k <= D k + t) ->
    exp (- t / (1 - r h)) * (residual_part J H grp r all_goods true D h * (1 + (1 - exp (- t)) / (1 + W))) <= residual_part J H grp r all_goods true V h.
  Proof using Hr1 Ht Hh Hr0 Hex.
    intro HV. assert (Hrh := Hr1 h Hh). assert (Ex := has_group).
    assert (PV := inclusive_pos J grp r all_goods V h Ex). assert (PD := inclusive_pos J grp r all_goods D h Ex).
    assert (C1 := inclusive_compare J H grp r all_goods all_goods V D t Hr1 (fun k _ _ => eq_refl) (fun k Hk _ => HV k Hk) h Hh).
    assert (C2 := weights_compare J H grp r all_goods all_goods V D t Hr1 (fun k _ _ => eq_refl) (fun k Hk _ => HV k Hk)).
    fold W in C2. unfold residual_part. cbn [indR]. fold W. set (Y := sumn H (group_weight J grp r all_goods V)) in *.
    assert (PW : 0 <= W) by apply weights_nonneg. assert (PY : 0 <= Y) by apply weights_nonneg.
    set (A := inclusive J grp r all_goods V h) in *. set (B := inclusive J grp r all_goods D h) in *.
    assert (HP : exp (- (r h * t / (1 - r h))) * Rpower B (- r h) <= Rpower A (- r h)).
    { replace (- (r h * t / (1 - r h))) with (- r h * (t / (1 - r h))) by (field; lra). rewrite <- Rpower_mult_exp by exact PD.
      apply Rpower_le_neg; [exact PV|exact C1|lra]. }
    assert (Q := faster W (exp (- t)) PW unit_exp).
    assert (Ei : / exp (- t) = exp t) by (rewrite exp_Ropp, Rinv_inv; reflexivity). rewrite Ei in Q.
    assert (Q2 : / (1 + exp t * W) <= / (1 + Y)) by (apply Rinv_le_contravar; lra).
    replace (exp (- t / (1 - r h))) with (exp (- (r h * t / (1 - r h))) * exp (- t)) by (rewrite <- exp_plus; f_equal; field; lra).
    replace (exp (- (r h * t / (1 - r h))) * exp (- t) * (Rpower B (- r h) / (1 + W) * (1 + (1 - exp (- t)) / (1 + W))))
      with (exp (- (r h * t / (1 - r h))) * Rpower B (- r h) * (exp (- t) / (1 + W) * (1 + (1 - exp (- t)) / (1 + W)))) by (unfold Rdiv; ring).
    change (Rpower A (- r h) / (1 + Y)) with (Rpower A (- r h) * / (1 + Y)). apply Rmult_le_compat.
    - left. apply Rmult_lt_0_compat; [apply exp_pos|apply Rpower_pos].
    - assert (U := unit_exp). apply Rmult_le_pos; [apply Rmult_le_pos; [lra|left; apply Rinv_0_lt_compat; lra]|].
      assert (0 <= (1 - exp (- t)) / (1 + W)) by (apply Rmult_le_pos; [lra|left; apply Rinv_0_lt_compat; lra]). lra.
    - exact HP.
    - eapply Rle_trans; [exact Q|exact Q2].
  Qed.

  Lemma residual_below : (forall k, (k < J)%nat -> D k <= V k + t) ->
    residual_part J H grp r all_goods true V h <= exp (t / (1 - r h)) * (residual_part J H grp r all_goods true D h * (1 - (1 - exp (- t)) / (1 + W))).
  Proof using Hr1 Ht Hh Hr0 Hex.
    intro HV. assert (Hrh := Hr1 h Hh). assert (Ex := has_group).
    assert (PV := inclusive_pos J grp r all_goods V h Ex). assert (PD := inclusive_pos J grp r all_goods D h Ex).
    assert (C1 := inclusive_compare J H grp r all_goods all_goods D V t Hr1 (fun k _ _ => eq_refl) (fun k Hk _ => HV k Hk) h Hh).
    assert (C2 := weights_compare J H grp r all_goods all_goods D V t Hr1 (fun k _ _ => eq_refl) (fun k Hk _ => HV k Hk)).
    fold W in C2. unfold residual_part. cbn [indR]. fold W. set (Y := sumn H (group_weight J grp r all_goods V)) in *.
    assert (PW : 0 <= W) by apply weights_nonneg. assert (PY : 0 <= Y) by apply weights_nonneg.
    set (A := inclusive J grp r all_goods V h) in *. set (B := inclusive J grp r all_goods D h) in *.
    assert (HP : Rpower A (- r h) <= exp (r h * t / (1 - r h)) * Rpower B (- r h)).
    { replace (r h * t / (1 - r h)) with (- r h * (- (t / (1 - r h)))) by (field; lra). rewrite <- Rpower_mult_exp by exact PD.
      assert (C3 : exp (- (t / (1 - r h))) * B <= A).
      { rewrite exp_Ropp. apply Rmult_le_reg_l with (exp (t / (1 - r h))); [apply exp_pos|]. rewrite <- Rmult_assoc, Rinv_r by (assert (Q := exp_pos (t / (1 - r h))); lra). lra. }
      apply Rpower_le_neg; [apply Rmult_lt_0_compat; [apply exp_pos|exact PD]|exact C3|lra]. }
    assert (Q := slower W (exp (- t)) PW unit_exp).
    assert (Ei : / exp (- t) = exp t) by (rewrite exp_Ropp, Rinv_inv; reflexivity). rewrite Ei in Q.
    assert (Ew : exp (- t) * W <= Y).
    { rewrite exp_Ropp. apply Rmult_le_reg_l with (exp t); [apply exp_pos|]. rewrite <- Rmult_assoc, Rinv_r by (assert (Z := exp_pos t); lra). lra. }
    assert (U := unit_exp).
    assert (Q2 : / (1 + Y) <= / (1 + exp (- t) * W)) by (apply Rinv_le_contravar; [assert (0 <= exp (- t) * W) by (apply Rmult_le_pos; lra); lra|lra]).
    replace (exp (t / (1 - r h))) with (exp (r h * t / (1 - r h)) * exp t) by (rewrite <- exp_plus; f_equal; field; lra).
    replace (exp (r h * t / (1 - r h)) * exp t * (Rpower B (- r h) / (1 + W) * (1 - (1 - exp (- t)) / (1 + W))))
      with (exp (r h * t / (1 - r h)) * Rpower B (- r h) * (exp t / (1 + W) * (1 - (1 - exp (- t)) / (1 + W)))) by (unfold Rdiv; ring).
    change (Rpower A (- r h) / (1 + Y)) with (Rpower A (- r h) * / (1 + Y)). apply Rmult_le_compat.
    - left. apply Rpower_pos.
    - left. apply Rinv_0_lt_compat. lra.
    - exact HP.
    - eapply Rle_trans; [exact Q2|exact Q].
  Qed.
End Nested.

Section Shares.
  Variables (J H I : nat) (grp : nat -> nat) (r w : nat -> R) (m : nat -> nat -> R) (d : nat -> R).
  Hypothesis Hr : forall h, (h < H)%nat -> 0 <= r h < 1.
  Hypothesis Hgrp : forall j, (j < J)%nat -> (grp j < H)%nat.
  Hypothesis Hw : forall i, (i < I)%nat -> 0 <= w i.
  Notation chose x i j := (nest_chosen J H grp r m x i j).
  Notation outside x i := (nest_outside J H grp r m x i).
  Notation share x j := (nest_share J H I grp r w m x j).
  Notation waver x j := (nest_wavering J H I grp r w m x j).

  Lemma nest_outside_eq x i : outside x i = / (1 + sumn H (group_weight J grp r all_goods (fun k => x k + m i k))).
  Proof using Hgrp.
    unfold nest_outside, nest_chosen. rewrite (sumn_ext J _ (nested J H grp r all_goods true (fun k => x k + m i k))) by reflexivity.
    rewrite (nested_total J H grp r all_goods true _ Hgrp). cbn [indR]. assert (P := weights_nonneg J H grp r all_goods (fun k => x k + m i k)). field. lra.
  Qed.
  Lemma nest_outside_unit x i : 0 < outside x i <= 1.
  Proof using Hgrp.
    rewrite nest_outside_eq. assert (P := weights_nonneg J H grp r all_goods (fun k => x k + m i k)). split; [apply Rinv_0_lt_compat; lra|].
    rewrite <- Rinv_1. apply Rinv_le_contravar; lra.
  Qed.
  Lemma nest_chosen_pos x i j : (j < J)%nat -> 0 < chose x i j.
  Proof using Hgrp. intro Hj. apply nested_pos; [exact Hj|exact (Hgrp j Hj)|reflexivity]. Qed.

  Lemma nest_above x t i j : (j < J)%nat -> 0 <= t -> (forall k, (k < J)%nat -> x k <= d k + t) ->
    exp ((x j - d j - t) / (1 - r (grp j))) * (chose d i j * (1 + outside d i * (1 - exp (- t)))) <= chose x i j.
  Proof using Hr Hgrp.
    intros Hj Ht Hx. assert (Hh := Hgrp j Hj). assert (B := Hr _ Hh).
    assert (Q := residual_above J H grp r (fun k => x k + m i k) (fun k => d k + m i k) t (grp j) (fun h Hh => proj2 (Hr h Hh)) Ht Hh (proj1 B)
      (ex_intro _ j (conj Hj eq_refl)) ltac:(intros k Hk; specialize (Hx k Hk); cbn beta; lra)).
    rewrite nest_outside_eq. unfold nest_chosen. rewrite !nested_factor by (try exact Hj; reflexivity).
    set (W := sumn H _) in *. set (Rd := residual_part J H grp r all_goods true (fun k => d k + m i k) (grp j)) in *.
    set (Rx := residual_part J H grp r all_goods true (fun k => x k + m i k) (grp j)) in *.
    assert (E : exp ((x j - d j - t) / (1 - r (grp j))) * exp ((d j + m i j) / (1 - r (grp j))) = exp ((x j + m i j) / (1 - r (grp j))) * exp (- t / (1 - r (grp j)))).
    { rewrite <- !exp_plus. f_equal. field. lra. }
    apply (Rmult_le_compat_l (exp ((x j + m i j) / (1 - r (grp j))))) in Q; [|left; apply exp_pos].
    eapply Rle_trans; [|exact Q]. right. rewrite <- (Rmult_assoc (exp ((x j + m i j) / (1 - r (grp j)))) (exp _)), <- E. unfold Rdiv. ring.
  Qed.
  Lemma nest_below x t i j : (j < J)%nat -> 0 <= t -> (forall k, (k < J)%nat -> d k - t <= x k) ->
    chose x i j <= exp ((x j - d j + t) / (1 - r (grp j))) * (chose d i j * (1 - outside d i * (1 - exp (- t)))).
  Proof using Hr Hgrp.
    intros Hj Ht Hx. assert (Hh := Hgrp j Hj). assert (B := Hr _ Hh).
    assert (Q := residual_below J H grp r (fun k => x k + m i k) (fun k => d k + m i k) t (grp j) (fun h Hh => proj2 (Hr h Hh)) Ht Hh (proj1 B)
      (ex_intro _ j (conj Hj eq_refl)) ltac:(intros k Hk; specialize (Hx k Hk); cbn beta; lra)).
    rewrite nest_outside_eq. unfold nest_chosen. rewrite !nested_factor by (try exact Hj; reflexivity).
    set (W := sumn H _) in *. set (Rd := residual_part J H grp r all_goods true (fun k => d k + m i k) (grp j)) in *.
    set (Rx := residual_part J H grp r all_goods true (fun k => x k + m i k) (grp j)) in *.
    assert (E : exp ((x j - d j + t) / (1 - r (grp j))) * exp ((d j + m i j) / (1 - r (grp j))) = exp ((x j + m i j) / (1 - r (grp j))) * exp (t / (1 - r (grp j)))).
    { rewrite <- !exp_plus. f_equal. field. lra. }
    apply (Rmult_le_compat_l (exp ((x j + m i j) / (1 - r (grp j))))) in Q; [|left; apply exp_pos].
    eapply Rle_trans; [exact Q|]. right. rewrite <- (Rmult_assoc (exp ((x j + m i j) / (1 - r (grp j)))) (exp _)), <- E. unfold Rdiv. ring.
  Qed.

  Lemma nest_share_above x t j : (j < J)%nat -> 0 <= t -> (forall k, (k < J)%nat -> x k <= d k + t) ->
    exp ((x j - d j - t) / (1 - r (grp j))) * (share d j + waver d j * (1 - exp (- t))) <= share x j.
  Proof using Hr Hgrp Hw.
    intros Hj Ht Hx. unfold nest_share, nest_wavering. rewrite <- sumn_scal_r, <- sumn_plus, <- sumn_scal. apply sumn_le. intros i Hi.
    assert (B := nest_above x t i j Hj Ht Hx). assert (P := Hw i Hi). apply (Rmult_le_compat_l (w i)) in B; [|exact P].
    eapply Rle_trans; [|exact B]. right. ring.
  Qed.
  Lemma nest_share_below x t j : (j < J)%nat -> 0 <= t -> (forall k, (k < J)%nat -> d k - t <= x k) ->
    share x j <= exp ((x j - d j + t) / (1 - r (grp j))) * (share d j - waver d j * (1 - exp (- t))).
  Proof using Hr Hgrp Hw.
    intros Hj Ht Hx. unfold nest_share, nest_wavering. rewrite <- sumn_scal_r, <- sumn_minus, <- sumn_scal. apply sumn_le. intros i Hi.
    assert (B := nest_below x t i j Hj Ht Hx). assert (P := Hw i Hi). apply (Rmult_le_compat_l (w i)) in B; [|exact P].
    eapply Rle_trans; [exact B|]. right. ring.
  Qed.
  Lemma nest_wavering_bounds j : (j < J)%nat -> 0 <= waver d j <= share d j.
  Proof using Hgrp Hw.
    intro Hj. unfold nest_wavering, nest_share. split.
    - apply sumn_nonneg. intros i Hi. apply Rmult_le_pos; [exact (Hw i Hi)|]. apply Rmult_le_pos; left; [exact (nest_chosen_pos d i j Hj)|apply nest_outside_unit].
    - apply sumn_le. intros i Hi. apply Rmult_le_compat_l; [exact (Hw i Hi)|]. rewrite <- (Rmult_1_r (chose d i j)) at 2.
      apply Rmult_le_compat_l; [left; exact (nest_chosen_pos d i j Hj)|apply nest_outside_unit].
  Qed.

  Lemma nest_rate x t g j : (j < J)%nat -> 0 <= t -> apart J x d t -> 0 < share d j ->
    0 <= g -> g * share d j <= (1 - r (grp j)) * waver d j ->
    0 < share x j /\
    Rabs (x j + (ln (share d j) - ln (share x j)) * (1 - r (grp j)) - d j) <= t - (1 - exp (- t)) * g / 2.
  Proof using Hr Hgrp Hw.
    intros Hj Ht Hx HS Hg Hh. set (s := share d j) in *. set (h := waver d j) in *. assert (Hrj := Hr _ (Hgrp j Hj)). set (c := 1 - r (grp j)) in *.
    assert (c0 : 0 < c) by (unfold c; lra).
    assert (B : forall q, (q < J)%nat -> - t <= x q - d q <= t) by (intros q Hq; specialize (Hx q Hq); apply abs_between in Hx; exact Hx).
    assert (U := nest_share_above x t j Hj Ht ltac:(intros q Hq; specialize (B q Hq); lra)).
    assert (V := nest_share_below x t j Hj Ht ltac:(intros q Hq; specialize (B q Hq); lra)).
    fold s h c in U, V. assert (HB := nest_wavering_bounds j Hj). fold s h in HB. assert (P := one_minus_exp t Ht). set (e := 1 - exp (- t)) in *.
    set (y := share x j) in *. set (f := g / c). assert (Eg : g = c * f) by (unfold f; field; lra).
    assert (f0 : 0 <= f) by (unfold f; apply Rmult_le_pos; [exact Hg|left; apply Rinv_0_lt_compat, c0]).
    assert (Hf : f * s <= h).
    { apply Rmult_le_reg_l with c; [exact c0|]. rewrite <- Rmult_assoc, <- Eg. exact Hh. }
    set (z := e * f).
    assert (f1 : f <= 1) by (apply Rmult_le_reg_r with s; lra).
    assert (Z : 0 <= z <= 1) by (unfold z; split; [apply Rmult_le_pos; lra|]; assert (e * f <= 1 * 1) by (apply Rmult_le_compat; lra); lra).
    assert (ZL : z < 1) by (unfold z; assert (e * f <= e * 1) by (apply Rmult_le_compat_l; lra); lra).
    assert (HL := ln_half z Z).
    assert (Ue : exp ((x j - d j - t) / c) * (s * (1 + z)) <= y).
    { eapply Rle_trans; [|exact U]. apply Rmult_le_compat_l; [left; apply exp_pos|]. unfold z. assert (e * (f * s) <= e * h) by (apply Rmult_le_compat_l; lra). lra. }
    assert (Ve : y <= exp ((x j - d j + t) / c) * (s * (1 - z))).
    { eapply Rle_trans; [exact V|]. apply Rmult_le_compat_l; [left; apply exp_pos|]. unfold z. assert (e * (f * s) <= e * h) by (apply Rmult_le_compat_l; lra). lra. }
    assert (P1 : 0 < s * (1 + z)) by (apply Rmult_lt_0_compat; lra). assert (P2 : 0 < s * (1 - z)) by (apply Rmult_lt_0_compat; lra).
    assert (Py : 0 < y) by (eapply Rlt_le_trans; [|exact Ue]; apply Rmult_lt_0_compat; [apply exp_pos|exact P1]).
    assert (LU : (x j - d j - t) / c + (ln s + ln (1 + z)) <= ln y).
    { rewrite <- (ln_exp ((x j - d j - t) / c)), <- (ln_mult s), <- ln_mult by (try apply exp_pos; lra). apply ln_le'; [apply Rmult_lt_0_compat; [apply exp_pos|exact P1]|exact Ue]. }
    assert (LV : ln y <= (x j - d j + t) / c + (ln s + ln (1 - z))).
    { rewrite <- (ln_exp ((x j - d j + t) / c)), <- (ln_mult s), <- ln_mult by (try apply exp_pos; lra). apply ln_le'; [exact Py|exact Ve]. }
    assert (LZ : ln (1 - z) <= - ln (1 + z)).
    { assert (ln ((1 - z) * (1 + z)) <= 0).
      { rewrite <- ln_1. apply ln_le'; [apply Rmult_lt_0_compat; lra|nra]. }
      rewrite ln_mult in H0 by lra. lra. }
    apply (Rmult_le_compat_r c) in LU; [|lra]. apply (Rmult_le_compat_r c) in LV; [|lra]. apply (Rmult_le_compat_r c) in LZ; [|lra]. apply (Rmult_le_compat_r c) in HL; [|lra].
    rewrite Rmult_plus_distr_r in LU, LV. replace ((x j - d j - t) / c * c) with (x j - d j - t) in LU by (field; lra). replace ((x j - d j + t) / c * c) with (x j - d j + t) in LV by (field; lra).
    split; [exact Py|]. apply Rabs_le. replace (e * g / 2) with (z / 2 * c) by (unfold z; rewrite Eg; field). lra.
  Qed.

  Lemma nest_ratio_exists : (exists i, (i < I)%nat /\ 0 < w i) -> exists g, 0 < g <= 1 /\ forall j, (j < J)%nat -> g * share d j <= (1 - r (grp j)) * waver d j.
  Proof using Hr Hgrp Hw.
    intros (i & Hi & Wi).
    assert (WP : forall j, (j < J)%nat -> 0 < waver d j).
    { intros j Hj. unfold nest_wavering. assert (P : forall k, 0 < chose d k j * outside d k) by (intro k; apply Rmult_lt_0_compat; [exact (nest_chosen_pos d k j Hj)|apply nest_outside_unit]).
      eapply Rlt_le_trans; [|apply (sumn_ge_term I (fun k => w k * (chose d k j * outside d k)) i); [|exact Hi]].
      - apply Rmult_lt_0_compat; [exact Wi|apply P].
      - intros k Hk. apply Rmult_le_pos; [exact (Hw k Hk)|left; apply P]. }
    assert (G : forall n, (n <= J)%nat -> exists g, 0 < g <= 1 /\ forall j, (j < n)%nat -> g * share d j <= (1 - r (grp j)) * waver d j); [|exact (G J (le_n J))].
    induction n as [|n IH]; intro Hn; [exists 1; split; [lra|intros; lia]|]. destruct (IH ltac:(lia)) as (g & Hg & K). assert (Hj : (n < J)%nat) by lia.
    assert (B := nest_wavering_bounds n Hj). assert (P := WP n Hj). assert (Hrn := Hr _ (Hgrp n Hj)). set (c := 1 - r (grp n)) in *. assert (c0 : 0 < c) by (unfold c; lra).
    set (s := share d n) in *. set (h := waver d n) in *. exists (Rmin g (c * h / s)).
    assert (Q : 0 < c * h / s) by (apply Rdiv_lt_0_compat; [apply Rmult_lt_0_compat; assumption|lra]).
    assert (M1 := Rmin_l g (c * h / s)). assert (M2 := Rmin_r g (c * h / s)).
    split; [split; [apply Rmin_glb_lt; lra|lra]|]. intros j Hjn. destruct (Nat.eq_dec j n) as [e|Hne].
    - rewrite e. fold s h c. apply Rle_trans with (c * h / s * s); [apply Rmult_le_compat_r; lra|right; field; lra].
    - eapply Rle_trans; [|apply K; lia]. apply Rmult_le_compat_r; [|exact M1]. assert (B' := nest_wavering_bounds j ltac:(lia)). lra.
  Qed.
End Shares.

Section Market.
  Variables (m : market) (a : DemandModel.agents) (safe : bool) (limits : option R * option R) (shares delta : nat -> R) (g R0 : R).
  Hypothesis V : valid_market m.
  Hypothesis Hnest : mH m <> O.
  Hypothesis Hrho : forall h, (h < mH m)%nat -> 0 <= grho m h.
  Hypothesis Hw : forall i, (i < aI a)%nat -> 0 <= aw a i.
  Hypothesis Hg : 0 <= g.
  Notation J := (mJ m).
  Notation H := (mH m).
  Notation I := (aI a).
  Notation share x j := (nest_share J H I (gid m) (grho m) (aw a) (amu a) x j).
  Notation waver x j := (nest_wavering J H I (gid m) (grho m) (aw a) (amu a) x j).
  Hypothesis Hshare : forall j, (j < J)%nat -> 0 < shares j /\ share delta j = shares j.
  Hypothesis Hwav : forall j, (j < J)%nat -> g * shares j <= (1 - grho m (gid m j)) * waver delta j.
  Hypothesis Hroom : forall j, (j < J)%nat -> roomy limits (R0 / (1 - grho m (gid m j))) (shares j).

  Lemma grho_unit h : (h < H)%nat -> 0 <= grho m h < 1.
  Proof using V Hnest Hrho. intro Hh. split; [exact (Hrho h Hh)|exact (vm_rho m V Hnest h Hh)]. Qed.

  Lemma nest_model_shares x j : (j < J)%nat -> market_shares m a safe x j = share x j.
  Proof using V Hnest.
    intro Hj. rewrite (shares_are_averaged m a safe x j V Hj). unfold nest_share. apply sumn_ext. intros i Hi. rewrite Rmult_comm.
    destruct (Nat.eqb_spec (mH m) 0) as [E|_]; [contradiction|]. f_equal. unfold nest_chosen. rewrite (vm_eps_nest m V Hnest). f_equal.
    apply FunctionalExtensionality.functional_extensionality. intro k. field.
  Qed.

  Lemma nest_share_range x t j : (j < J)%nat -> 0 <= t <= R0 -> apart J x delta t ->
    exp (- (2 * (R0 / (1 - grho m (gid m j))))) * shares j <= share x j <= exp (2 * (R0 / (1 - grho m (gid m j)))) * shares j.
  Proof using V Hnest Hrho Hw Hshare.
    intros Hj Ht Hx. destruct (Hshare j Hj) as [P E]. assert (Hgj := vm_gid m V Hnest j Hj). assert (Hrj := grho_unit _ Hgj).
    assert (B : forall q, (q < J)%nat -> - t <= x q - delta q <= t) by (intros q Hq; specialize (Hx q Hq); apply abs_between in Hx; exact Hx).
    assert (U := nest_share_above J H I (gid m) (grho m) (aw a) (amu a) delta grho_unit (vm_gid m V Hnest) Hw x t j Hj (proj1 Ht) ltac:(intros q Hq; specialize (B q Hq); lra)).
    assert (L := nest_share_below J H I (gid m) (grho m) (aw a) (amu a) delta grho_unit (vm_gid m V Hnest) Hw x t j Hj (proj1 Ht) ltac:(intros q Hq; specialize (B q Hq); lra)).
    assert (WB := nest_wavering_bounds J H I (gid m) (grho m) (aw a) (amu a) delta (vm_gid m V Hnest) Hw j Hj). assert (OM := one_minus_exp t (proj1 Ht)). rewrite E in *. specialize (B j Hj).
    set (c := 1 - grho m (gid m j)) in *. assert (c0 : 0 < / c) by (apply Rinv_0_lt_compat; unfold c; lra).
    assert (0 <= waver delta j * (1 - exp (- t))) by (apply Rmult_le_pos; lra).
    assert (D : forall p q, p <= q -> p / c <= q / c) by (intros p q K; apply Rmult_le_compat_r; lra).
    split.
    - eapply Rle_trans; [|exact U]. apply Rmult_le_compat; [left; apply exp_pos|lra|apply exp_le|lra].
      replace (- (2 * (R0 / c))) with ((- (2 * R0)) / c) by (unfold Rdiv; ring). apply D. lra.
    - eapply Rle_trans; [exact L|]. apply Rmult_le_compat; [left; apply exp_pos| |apply exp_le|lra].
      + assert (waver delta j * (1 - exp (- t)) <= shares j * 1) by (apply Rmult_le_compat; lra). lra.
      + replace (2 * (R0 / c)) with ((2 * R0) / c) by (unfold Rdiv; ring). apply D. lra.
  Qed.

  Lemma nest_step x t j : (j < J)%nat -> 0 <= t <= R0 -> apart J x delta t ->
    Rabs (contraction m a safe limits shares x j - delta j) <= rate g R0 * t.
  Proof using V Hnest Hrho Hw Hg Hshare Hwav Hroom.
    intros Hj Ht Hx. destruct (Hshare j Hj) as [P E]. unfold contraction. destruct (Nat.eqb_spec (mH m) 0) as [HH|_]; [contradiction|]. rewrite nest_model_shares by exact Hj.
    rewrite (roomy_clip limits _ _ (shares j) (Hroom j Hj) (nest_share_range x t j Hj Ht Hx)).
    destruct (nest_rate J H I (gid m) (grho m) (aw a) (amu a) delta grho_unit (vm_gid m V Hnest) Hw x t g j Hj (proj1 Ht) Hx) as [_ B]; [rewrite E; exact P|exact Hg|rewrite E; exact (Hwav j Hj)|].
    rewrite E in B. eapply Rle_trans; [exact B|]. apply rate_shrinks; [exact Hg|exact Ht].
  Qed.

  Lemma nest_g_unit : g <= 1.
  Proof using V Hnest Hrho Hw Hshare Hwav.
    assert (J0 := vm_J m V). destruct (Hshare O J0) as [P E]. assert (WB := nest_wavering_bounds J H I (gid m) (grho m) (aw a) (amu a) delta (vm_gid m V Hnest) Hw O J0). rewrite E in WB.
    specialize (Hwav O J0). assert (Hr := grho_unit _ (vm_gid m V Hnest O J0)).
    apply Rmult_le_reg_r with (shares 0%nat); [exact P|]. eapply Rle_trans; [exact Hwav|]. apply Rmult_le_compat; lra.
  Qed.
  Lemma nest_geometric start : 0 <= R0 -> apart J start delta R0 ->
    forall n, apart J (Nat.iter n (contraction m a safe limits shares) start) delta (rate g R0 ^ n * R0).
  Proof using V Hnest Hrho Hw Hg Hshare Hwav Hroom.
    intros HR H0 n. assert (G1 := nest_g_unit).
    assert (K : 0 <= rate g R0 <= 1).
    { unfold rate. assert (P := exp_pos (- R0)). assert (Q := exp_le (- R0) 0 ltac:(lra)). rewrite exp_0 in Q.
      assert (0 <= g * exp (- R0)) by (apply Rmult_le_pos; lra). assert (g * exp (- R0) <= 1 * 1) by (apply Rmult_le_compat; lra). lra. }
    induction n as [|n IH]; intros j Hj; [cbn [Nat.iter nat_rect pow]; rewrite Rmult_1_l; exact (H0 j Hj)|].
    assert (P : 0 <= rate g R0 ^ n) by (apply pow_le; lra).
    assert (P1 : rate g R0 ^ n <= 1) by (rewrite <- (pow1 n); apply pow_incr; exact K).
    change (Nat.iter (S n) (contraction m a safe limits shares) start) with (contraction m a safe limits shares (Nat.iter n (contraction m a safe limits shares) start)).
    cbn [pow]. rewrite Rmult_assoc. apply nest_step; [exact Hj| |exact IH].
    split; [apply Rmult_le_pos; lra|]. assert (rate g R0 ^ n * R0 <= 1 * R0) by (apply Rmult_le_compat_r; lra). lra.
  Qed.
End Market.

Section Scaled.
  Variables (m : market) (a : DemandModel.agents) (safe : bool) (limits : option R * option R) (shares delta : nat -> R) (g R0 : R).
  Hypothesis V : valid_market m.
  Hypothesis Hplain : mH m = O.
  Notation e := (eps_scale m).
  Hypothesis Hscale : 1 <= e.
  Hypothesis Hw : forall i, (i < aI a)%nat -> 0 <= aw a i.
  Hypothesis Hg : 0 <= g.
  Notation J := (mJ m).
  Notation I := (aI a).
  Notation share x j := (share_of J I (aw a) (fun i k => amu a i k / e) (fun k => x k / e) j).
  Hypothesis Hshare : forall j, (j < J)%nat -> 0 < shares j /\ share delta j = shares j.
  Hypothesis Hwav : forall j, (j < J)%nat -> g * shares j <= wavering J I (aw a) (fun i k => amu a i k / e) (fun k => delta k / e) j.
  Hypothesis Hroom : forall j, (j < J)%nat -> roomy limits (R0 / e) (shares j).

  Lemma scaled_model_shares x j : (j < J)%nat -> market_shares m a safe x j = share x j.
  Proof using V Hplain Hscale.
    intro Hj. rewrite (shares_are_averaged m a safe x j V Hj). unfold share_of. apply sumn_ext. intros i Hi. rewrite Hplain, Rmult_comm. cbn [Nat.eqb]. f_equal.
    unfold chosen. f_equal. apply FunctionalExtensionality.functional_extensionality. intro k. unfold Rdiv. ring.
  Qed.
  Lemma scaled_apart x t : apart J x delta t -> apart J (fun k => x k / e) (fun k => delta k / e) (t / e).
  Proof using Hscale.
    intros Hx k Hk. assert (P : 0 < / e) by (apply Rinv_0_lt_compat; lra). replace (x k / e - delta k / e) with ((x k - delta k) * / e) by (unfold Rdiv; ring).
    rewrite Rabs_mult, (Rabs_pos_eq (/ e)) by lra. apply Rmult_le_compat_r; [lra|exact (Hx k Hk)].
  Qed.

  Lemma scaled_step x t j : (j < J)%nat -> 0 <= t <= R0 -> apart J x delta t ->
    Rabs (contraction m a safe limits shares x j - delta j) <= scaled_rate e (rate g (R0 / e)) * t.
  Proof using V Hplain Hscale Hw Hg Hshare Hwav Hroom.
    intros Hj Ht Hx. destruct (Hshare j Hj) as [P E]. unfold contraction. rewrite Hplain. cbn [Nat.eqb]. rewrite scaled_model_shares by exact Hj.
    assert (Pe : 0 < / e) by (apply Rinv_0_lt_compat; lra). assert (P1 : / e <= 1) by (rewrite <- Rinv_1; apply Rinv_le_contravar; lra).
    assert (Ht' : 0 <= t / e <= R0 / e) by (split; [apply Rmult_le_pos; lra|apply Rmult_le_compat_r; lra]).
    assert (Hx' := scaled_apart x t Hx).
    rewrite (roomy_clip limits (R0 / e) (share x j) (shares j) (Hroom j Hj)
      (share_range (mk_market J 0 (fun _ => O) false (fun _ => 0) 1) (mk_agents I (aw a) (fun i k => amu a i k / e)) shares (fun k => delta k / e) g (R0 / e) Hw Hg Hshare Hwav
        (fun k => x k / e) (t / e) j Hj Ht' Hx')).
    destruct (contraction_rate J I (aw a) (fun i k => amu a i k / e) (fun k => delta k / e) Hw (fun k => x k / e) (t / e) g j Hj (proj1 Ht') Hx') as [_ B]; [rewrite E; exact P|exact Hg|rewrite E; exact (Hwav j Hj)|].
    rewrite E in B. assert (S := rate_shrinks g (R0 / e) (t / e) Hg Ht'). specialize (Hx j Hj).
    cbn beta in B. set (y := ln (shares j) - ln (share x j)) in *.
    replace (x j + ln (shares j) - ln (share x j) - delta j) with ((1 - / e) * (x j - delta j) + (x j / e + ln (shares j) - ln (share x j) - delta j / e)) by (unfold Rdiv; ring).
    eapply Rle_trans; [apply Rabs_triang|]. rewrite Rabs_mult, (Rabs_pos_eq (1 - / e)) by lra.
    assert (L : (1 - / e) * Rabs (x j - delta j) <= (1 - / e) * t) by (apply Rmult_le_compat_l; lra).
    unfold scaled_rate. replace ((1 - (1 - rate g (R0 / e)) / e) * t) with ((1 - / e) * t + rate g (R0 / e) * (t / e)) by (unfold Rdiv; ring). lra.
  Qed.

  Lemma scaled_g_unit : g <= 1.
  Proof using V Hw Hshare Hwav.
    assert (J0 := vm_J m V). destruct (Hshare O J0) as [P E]. assert (WB := wavering_bounds J I (aw a) (fun i k => amu a i k / e) (fun k => delta k / e) Hw 0). rewrite E in WB.
    specialize (Hwav O J0). apply Rmult_le_reg_r with (shares 0%nat); [exact P|lra].
  Qed.
  Lemma scaled_rate_unit : 0 <= R0 -> 0 <= scaled_rate e (rate g (R0 / e)) <= 1.
  Proof using V Hscale Hw Hg Hshare Hwav.
    intro HR. assert (G1 := scaled_g_unit). assert (Pe : 0 < / e) by (apply Rinv_0_lt_compat; lra). assert (P1 : / e <= 1) by (rewrite <- Rinv_1; apply Rinv_le_contravar; lra).
    assert (K : 0 <= rate g (R0 / e) <= 1).
    { unfold rate. assert (0 <= R0 / e) by (apply Rmult_le_pos; lra). assert (P := exp_pos (- (R0 / e))). assert (Q := exp_le (- (R0 / e)) 0 ltac:(lra)). rewrite exp_0 in Q.
      assert (0 <= g * exp (- (R0 / e))) by (apply Rmult_le_pos; lra). assert (g * exp (- (R0 / e)) <= 1 * 1) by (apply Rmult_le_compat; lra). lra. }
    unfold scaled_rate, Rdiv. assert (0 <= (1 - rate g (R0 / e)) * / e <= 1 * 1) by (split; [apply Rmult_le_pos; lra|apply Rmult_le_compat; lra]). unfold Rdiv in *. lra.
  Qed.
  Lemma scaled_geometric start : 0 <= R0 -> apart J start delta R0 ->
    forall n, apart J (Nat.iter n (contraction m a safe limits shares) start) delta (scaled_rate e (rate g (R0 / e)) ^ n * R0).
  Proof using V Hplain Hscale Hw Hg Hshare Hwav Hroom.
    intros HR H0 n. assert (K := scaled_rate_unit HR).
    induction n as [|n IH]; intros j Hj; [cbn [Nat.iter nat_rect pow]; rewrite Rmult_1_l; exact (H0 j Hj)|].
    set (q := scaled_rate e (rate g (R0 / e))) in *.
    assert (P : 0 <= q ^ n) by (apply pow_le; lra).
    assert (P1 : q ^ n <= 1) by (rewrite <- (pow1 n); apply pow_incr; exact K).
    change (Nat.iter (S n) (contraction m a safe limits shares) start) with (contraction m a safe limits shares (Nat.iter n (contraction m a safe limits shares) start)).
    cbn [pow]. rewrite Rmult_assoc. apply scaled_step; [exact Hj| |exact IH].
    split; [apply Rmult_le_pos; lra|]. assert (q ^ n * R0 <= 1 * R0) by (apply Rmult_le_compat_r; lra). lra.
  Qed.
End Scaled.
