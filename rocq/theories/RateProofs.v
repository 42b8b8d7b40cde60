(** How fast the contraction converges, and how errors in shares translate into errors in mean utilities. *)
From Coq Require Import Reals Arith Lra Lia.
From Verif Require Import Base DemandSpec RateSpec.
Local Open Scope R_scope.

Lemma exp_le a b : a <= b -> exp a <= exp b.
Proof. intros [H| ->]; [left; apply exp_increasing, H|right; reflexivity]. Qed.
Lemma abs_between x t : Rabs x <= t -> - t <= x <= t.
Proof. intro H. assert (A := Rle_abs x). assert (B := Rle_abs (- x)). rewrite Rabs_Ropp in B. lra. Qed.
Lemma one_minus_exp t : 0 <= t -> 0 <= 1 - exp (- t) < 1.
Proof. intro H. assert (P := exp_pos (- t)). assert (Q := exp_le (- t) 0 ltac:(lra)). rewrite exp_0 in Q. lra. Qed.

Section Exact.
  Variables (J I : nat) (w : nat -> R) (m : nat -> nat -> R) (d : nat -> R).
  Hypothesis Hw : forall i, (i < I)%nat -> 0 <= w i.
  Let A (i : nat) : R := sumn J (fun k => exp (d k + m i k)).
  Lemma A_nonneg i : 0 <= A i.
  Proof using. apply sumn_nonneg. intros k _. left. apply exp_pos. Qed.
  Lemma chosen_eq x i j : chosen J m x i j = exp (x j + m i j) / (1 + sumn J (fun k => exp (x k + m i k))).
  Proof using. reflexivity. Qed.
  Lemma chosen_at i j : chosen J m d i j = exp (d j + m i j) / (1 + A i).
  Proof using. reflexivity. Qed.
  Lemma outside_at i : outside_chosen J m d i = / (1 + A i).
  Proof using.
    assert (P := A_nonneg i). unfold outside_chosen.
    rewrite (sumn_ext J (chosen J m d i) (fun j => exp (d j + m i j) * / (1 + A i))) by (intros; apply chosen_at).
    rewrite sumn_scal_r. fold (A i). field. lra.
  Qed.
  Lemma chosen_pos x i j : 0 < chosen J m x i j.
  Proof using.
    rewrite chosen_eq. apply Rdiv_lt_0_compat; [apply exp_pos|].
    assert (0 <= sumn J (fun k => exp (x k + m i k))) by (apply sumn_nonneg; intros; left; apply exp_pos). lra.
  Qed.
  Lemma outside_unit i : 0 < outside_chosen J m d i <= 1.
  Proof using.
    rewrite outside_at. assert (P := A_nonneg i). split; [apply Rinv_0_lt_compat; lra|].
    rewrite <- Rinv_1. apply Rinv_le_contravar; lra.
  Qed.

  Lemma chosen_above x t i j : (j < J)%nat -> 0 <= t -> (forall k, (k < J)%nat -> x k <= d k + t) ->
    exp (x j - d j - t) * (chosen J m d i j * (1 + outside_chosen J m d i * (1 - exp (- t)))) <= chosen J m x i j.
  Proof using.
    intros Hj Ht Hx. rewrite chosen_at, outside_at, (chosen_eq x). assert (P := A_nonneg i). set (Ai := A i) in *.
    assert (HS : sumn J (fun k => exp (x k + m i k)) <= exp t * Ai).
    { unfold Ai, A. rewrite <- sumn_scal. apply sumn_le. intros k Hk. rewrite <- exp_plus. apply exp_le. specialize (Hx k Hk). lra. }
    assert (S0 : 0 <= sumn J (fun k => exp (x k + m i k))) by (apply sumn_nonneg; intros; left; apply exp_pos).
    set (Sx := sumn J _) in *. assert (Pt := exp_pos t). assert (Pm := one_minus_exp t Ht).
    assert (Et : exp (- t) * exp t = 1) by (rewrite <- exp_plus; replace (- t + t) with 0 by ring; apply exp_0).
    set (e := exp (- t)) in *. assert (Pe : 0 < e) by apply exp_pos.
    set (a := exp (d j + m i j)). assert (Pa : 0 < a) by apply exp_pos.
    replace (exp (x j + m i j)) with (exp (x j - d j - t) * (exp t * a)) by (unfold a; rewrite <- !exp_plus; f_equal; ring).
    set (b := exp (x j - d j - t)). assert (Pb : 0 < b) by apply exp_pos.
    unfold Rdiv. rewrite (Rmult_assoc b). apply Rmult_le_compat_l; [lra|].
    apply Rle_trans with (exp t * a * / (1 + exp t * Ai)).
    - replace (exp t * a * / (1 + exp t * Ai)) with (a * / (e + Ai)).
      + rewrite Rmult_assoc. apply Rmult_le_compat_l; [lra|]. apply Rmult_le_reg_r with (e + Ai); [lra|]. rewrite Rinv_l by lra.
        apply Rmult_le_reg_r with ((1 + Ai) * (1 + Ai)); [apply Rmult_lt_0_compat; lra|].
        replace (/ (1 + Ai) * (1 + / (1 + Ai) * (1 - e)) * (e + Ai) * ((1 + Ai) * (1 + Ai))) with ((1 + Ai + (1 - e)) * (e + Ai)) by (field; lra). nra.
      + replace (1 + exp t * Ai) with (exp t * (e + Ai)) by (rewrite Rmult_plus_distr_l, (Rmult_comm (exp t) e), Et; ring). field. split; lra.
    - apply Rmult_le_compat_l; [apply Rlt_le, Rmult_lt_0_compat; lra|]. apply Rinv_le_contravar; lra.
  Qed.

  Lemma chosen_below x t i j : (j < J)%nat -> 0 <= t -> (forall k, (k < J)%nat -> d k - t <= x k) ->
    chosen J m x i j <= exp (x j - d j + t) * (chosen J m d i j * (1 - outside_chosen J m d i * (1 - exp (- t)))).
  Proof using.
    intros Hj Ht Hx. rewrite chosen_at, outside_at, (chosen_eq x). assert (P := A_nonneg i). set (Ai := A i) in *.
    assert (HS : exp (- t) * Ai <= sumn J (fun k => exp (x k + m i k))).
    { unfold Ai, A. rewrite <- sumn_scal. apply sumn_le. intros k Hk. rewrite <- exp_plus. apply exp_le. specialize (Hx k Hk). lra. }
    set (Sx := sumn J (fun k => exp (x k + m i k))) in *. assert (Pt := exp_pos t). assert (Pm := one_minus_exp t Ht).
    assert (Et : exp (- t) * exp t = 1) by (rewrite <- exp_plus; replace (- t + t) with 0 by ring; apply exp_0).
    set (e := exp (- t)) in *. assert (Pe : 0 < e) by apply exp_pos.
    set (a := exp (d j + m i j)). assert (Pa : 0 < a) by apply exp_pos.
    replace (exp (x j + m i j)) with (exp (x j - d j + t) * (e * a)) by (unfold a, e; rewrite <- !exp_plus; f_equal; ring).
    set (b := exp (x j - d j + t)). assert (Pb : 0 < b) by apply exp_pos.
    unfold Rdiv. rewrite (Rmult_assoc b). apply Rmult_le_compat_l; [lra|].
    assert (Pea : 0 <= e * Ai) by (apply Rmult_le_pos; lra).
    apply Rle_trans with (e * a * / (1 + e * Ai)).
    - apply Rmult_le_compat_l; [apply Rlt_le, Rmult_lt_0_compat; lra|]. apply Rinv_le_contravar; lra.
    - rewrite (Rmult_comm e a), !Rmult_assoc. apply Rmult_le_compat_l; [lra|].
      apply Rmult_le_reg_r with (1 + e * Ai); [lra|]. rewrite Rmult_assoc, Rinv_l by lra.
      apply Rmult_le_reg_r with ((1 + Ai) * (1 + Ai)); [apply Rmult_lt_0_compat; lra|].
      replace (/ (1 + Ai) * (1 - / (1 + Ai) * (1 - e)) * (1 + e * Ai) * ((1 + Ai) * (1 + Ai))) with ((Ai + e) * (1 + e * Ai)) by (field; lra).
      assert (0 <= Ai * ((1 - e) * (1 - e))) by (apply Rmult_le_pos; [lra|nra]). nra.
  Qed.

  Lemma share_above x t j : (j < J)%nat -> 0 <= t -> (forall k, (k < J)%nat -> x k <= d k + t) ->
    exp (x j - d j - t) * (share_of J I w m d j + wavering J I w m d j * (1 - exp (- t))) <= share_of J I w m x j.
  Proof using Hw.
    intros Hj Ht Hx. unfold share_of, wavering. rewrite <- sumn_scal_r, <- sumn_plus, <- sumn_scal. apply sumn_le. intros i Hi.
    assert (B := chosen_above x t i j Hj Ht Hx). assert (W := Hw i Hi). apply (Rmult_le_compat_l (w i)) in B; [|exact W].
    eapply Rle_trans; [|exact B]. right. ring.
  Qed.
  Lemma share_below x t j : (j < J)%nat -> 0 <= t -> (forall k, (k < J)%nat -> d k - t <= x k) ->
    share_of J I w m x j <= exp (x j - d j + t) * (share_of J I w m d j - wavering J I w m d j * (1 - exp (- t))).
  Proof using Hw.
    intros Hj Ht Hx. unfold share_of, wavering. rewrite <- sumn_scal_r, <- sumn_minus, <- sumn_scal. apply sumn_le. intros i Hi.
    assert (B := chosen_below x t i j Hj Ht Hx). assert (W := Hw i Hi). apply (Rmult_le_compat_l (w i)) in B; [|exact W].
    eapply Rle_trans; [exact B|]. right. ring.
  Qed.
  Lemma wavering_bounds j : 0 <= wavering J I w m d j <= share_of J I w m d j.
  Proof using Hw.
    unfold wavering, share_of. split.
    - apply sumn_nonneg. intros i Hi. apply Rmult_le_pos; [exact (Hw i Hi)|]. apply Rmult_le_pos; left; [apply chosen_pos|apply outside_unit].
    - apply sumn_le. intros i Hi. apply Rmult_le_compat_l; [exact (Hw i Hi)|]. rewrite <- (Rmult_1_r (chosen J m d i j)) at 2.
      apply Rmult_le_compat_l; [left; apply chosen_pos|apply outside_unit].
  Qed.

  (** Mean utilities that are far from d give different shares. *)
  Lemma furthest x : (0 < J)%nat -> exists k, (k < J)%nat /\ (apart J x d (Rabs (x k - d k))).
  Proof using.
    intro HJ. clear - HJ. unfold apart. induction J as [|n IH]; [lia|]. destruct n as [|n].
    - exists O. split; [lia|]. intros k Hk. assert (k = O) by lia. subst. lra.
    - destruct IH as (k & Hk & H); [lia|]. destruct (Rle_dec (Rabs (x k - d k)) (Rabs (x (S n) - d (S n)))) as [L|L].
      + exists (S n). split; [lia|]. intros q Hq. destruct (Nat.eq_dec q (S n)) as [->|N]; [lra|]. eapply Rle_trans; [apply H; lia|exact L].
      + exists k. split; [lia|]. intros q Hq. destruct (Nat.eq_dec q (S n)) as [->|N]; [lra|]. apply H. lia.
  Qed.
  Lemma share_gap x k : (k < J)%nat -> apart J x d (Rabs (x k - d k)) ->
    wavering J I w m d k * (1 - exp (- Rabs (x k - d k))) <= Rabs (share_of J I w m x k - share_of J I w m d k).
  Proof using Hw.
    intros Hk Hd. set (t := Rabs (x k - d k)) in *. assert (Ht : 0 <= t) by apply Rabs_pos.
    assert (B : forall q, (q < J)%nat -> - t <= x q - d q <= t) by (intros q Hq; specialize (Hd q Hq); apply abs_between in Hd; exact Hd).
    destruct (Rle_dec 0 (x k - d k)) as [L|L].
    - assert (E : t = x k - d k) by (unfold t; apply Rabs_pos_eq; exact L).
      assert (U := share_above x t k Hk Ht ltac:(intros q Hq; specialize (B q Hq); lra)).
      replace (x k - d k - t) with 0 in U by lra. rewrite exp_0, Rmult_1_l in U.
      eapply Rle_trans; [|apply Rle_abs]. lra.
    - assert (E : t = - (x k - d k)) by (unfold t; apply Rabs_left1; lra).
      assert (U := share_below x t k Hk Ht ltac:(intros q Hq; specialize (B q Hq); lra)).
      replace (x k - d k + t) with 0 in U by lra. rewrite exp_0, Rmult_1_l in U.
      rewrite Rabs_minus_sym. eapply Rle_trans; [|apply Rle_abs]. lra.
  Qed.

  Lemma distance_bound t z : 0 <= t -> z <= / 2 -> 1 - exp (- t) <= z -> t <= 2 * z.
  Proof using.
    intros Ht Hz H. assert (Z0 : 0 <= z) by (assert (Q := one_minus_exp t Ht); lra).
    assert (E : exp (- (2 * z)) <= 1 - z).
    { rewrite exp_Ropp. assert (P := exp_ineq1_le (2 * z)). apply Rle_trans with (/ (1 + 2 * z)); [apply Rinv_le_contravar; lra|].
      apply Rmult_le_reg_r with (1 + 2 * z); [lra|]. rewrite Rinv_l by lra. nra. }
    destruct (Rle_dec t (2 * z)) as [L|L]; [exact L|exfalso]. assert (exp (- t) < exp (- (2 * z))) by (apply exp_increasing; lra). lra.
  Qed.
  Lemma shares_determine x err h : 0 < h -> 2 * err <= h -> (forall k, (k < J)%nat -> h <= wavering J I w m d k) ->
    (forall k, (k < J)%nat -> Rabs (share_of J I w m x k - share_of J I w m d k) <= err) ->
    apart J x d (2 * err / h).
  Proof using Hw.
    intros Hh He Hk H j Hj. destruct (furthest x ltac:(lia)) as (k & Hkk & F). eapply Rle_trans; [exact (F j Hj)|].
    assert (G := share_gap x k Hkk F). specialize (H k Hkk). specialize (Hk k Hkk). assert (P := one_minus_exp _ (Rabs_pos (x k - d k))).
    replace (2 * err / h) with (2 * (err / h)) by (field; lra). apply distance_bound; [apply Rabs_pos| |].
    - apply Rmult_le_reg_r with h; [exact Hh|]. unfold Rdiv. rewrite Rmult_assoc, Rinv_l by lra. lra.
    - apply Rmult_le_reg_r with h; [exact Hh|]. unfold Rdiv. rewrite Rmult_assoc, Rinv_l, Rmult_1_r by lra.
      eapply Rle_trans; [|eapply Rle_trans; [exact G|exact H]]. rewrite Rmult_comm. apply Rmult_le_compat_r; lra.
  Qed.

  (** The contraction shrinks distances from d. *)
  Lemma ln_half z : 0 <= z <= 1 -> z / 2 <= ln (1 + z).
  Proof using.
    intro H. rewrite <- (ln_exp (z / 2)). destruct (Rle_lt_or_eq_dec (exp (z / 2)) (1 + z)) as [L|L].
    - assert (P := exp_ineq1_le (- (z / 2))). rewrite exp_Ropp in P.
      apply Rmult_le_reg_r with (/ exp (z / 2)); [apply Rinv_0_lt_compat, exp_pos|]. rewrite Rinv_r by (assert (Q := exp_pos (z / 2)); lra).
      apply Rle_trans with ((1 + z) * (1 + - (z / 2))); [nra|]. apply Rmult_le_compat_l; lra.
    - left. apply ln_increasing; [apply exp_pos|exact L].
    - right. f_equal. exact L.
  Qed.
  Lemma contraction_rate x t g j : (j < J)%nat -> 0 <= t -> apart J x d t -> 0 < share_of J I w m d j ->
    0 <= g -> g * share_of J I w m d j <= wavering J I w m d j ->
    0 < share_of J I w m x j /\
    Rabs (x j + ln (share_of J I w m d j) - ln (share_of J I w m x j) - d j) <= t - (1 - exp (- t)) * g / 2.
  Proof using Hw.
    intros Hj Ht Hx HS Hg Hh. set (s := share_of J I w m d j) in *. set (h := wavering J I w m d j) in *.
    assert (B : forall q, (q < J)%nat -> - t <= x q - d q <= t) by (intros q Hq; specialize (Hx q Hq); apply abs_between in Hx; exact Hx).
    assert (U := share_above x t j Hj Ht ltac:(intros q Hq; specialize (B q Hq); lra)).
    assert (V := share_below x t j Hj Ht ltac:(intros q Hq; specialize (B q Hq); lra)).
    fold s h in U, V. assert (HB := wavering_bounds j). fold s h in HB. assert (P := one_minus_exp t Ht). set (e := 1 - exp (- t)) in *.
    set (r := share_of J I w m x j) in *. set (z := e * g).
    assert (g1 : g <= 1) by (apply Rmult_le_reg_r with s; lra).
    assert (Z : 0 <= z <= 1) by (unfold z; split; [apply Rmult_le_pos; lra|]; assert (e * g <= 1 * 1) by (apply Rmult_le_compat; lra); lra).
    assert (ZL : z < 1) by (unfold z; assert (e * g <= e * 1) by (apply Rmult_le_compat_l; lra); lra).
    assert (HL := ln_half z Z).
    assert (Ue : exp (x j - d j - t) * (s * (1 + z)) <= r).
    { eapply Rle_trans; [|exact U]. apply Rmult_le_compat_l; [left; apply exp_pos|]. unfold z. assert (e * (g * s) <= e * h) by (apply Rmult_le_compat_l; lra). lra. }
    assert (Ve : r <= exp (x j - d j + t) * (s * (1 - z))).
    { eapply Rle_trans; [exact V|]. apply Rmult_le_compat_l; [left; apply exp_pos|]. unfold z. assert (e * (g * s) <= e * h) by (apply Rmult_le_compat_l; lra). lra. }
    assert (P1 : 0 < s * (1 + z)) by (apply Rmult_lt_0_compat; lra). assert (P2 : 0 < s * (1 - z)) by (apply Rmult_lt_0_compat; lra).
    assert (Pr : 0 < r) by (eapply Rlt_le_trans; [|exact Ue]; apply Rmult_lt_0_compat; [apply exp_pos|exact P1]).
    assert (LU : x j - d j - t + (ln s + ln (1 + z)) <= ln r).
    { rewrite <- (ln_exp (x j - d j - t)), <- (ln_mult s), <- ln_mult by (try apply exp_pos; lra).
      destruct Ue as [Ue|<-]; [left; apply ln_increasing; [apply Rmult_lt_0_compat; [apply exp_pos|exact P1]|exact Ue]|right; reflexivity]. }
    assert (LV : ln r <= x j - d j + t + (ln s + ln (1 - z))).
    { rewrite <- (ln_exp (x j - d j + t)), <- (ln_mult s), <- ln_mult by (try apply exp_pos; lra).
      destruct Ve as [Ve| ->]; [left; apply ln_increasing; [exact Pr|exact Ve]|right; reflexivity]. }
    assert (LZ : ln (1 - z) <= - ln (1 + z)).
    { assert (ln ((1 - z) * (1 + z)) <= 0).
      { rewrite <- ln_1. destruct (Rle_lt_or_eq_dec ((1 - z) * (1 + z)) 1) as [Q|Q]; [nra|left; apply ln_increasing; [apply Rmult_lt_0_compat; lra|exact Q]|right; f_equal; exact Q]. }
      rewrite ln_mult in H by lra. lra. }
    split; [exact Pr|]. apply Rabs_le. replace ((1 - exp (- t)) * g / 2) with (z / 2) by (unfold z, e; reflexivity). lra.
  Qed.

  (** A rate that holds everywhere within distance R0. *)
  Lemma rate_bounds g R0 : 0 < g <= 1 -> 0 <= R0 -> / 2 <= rate g R0 < 1.
  Proof using.
    intros Hg HR. unfold rate. assert (P := exp_pos (- R0)). assert (Q := exp_le (- R0) 0 ltac:(lra)). rewrite exp_0 in Q.
    assert (0 < g * exp (- R0)) by (apply Rmult_lt_0_compat; lra). assert (g * exp (- R0) <= 1 * 1) by (apply Rmult_le_compat; lra). lra.
  Qed.
  Lemma rate_shrinks g R0 t : 0 <= g -> 0 <= t <= R0 -> t - (1 - exp (- t)) * g / 2 <= rate g R0 * t.
  Proof using.
    intros Hg Ht. unfold rate.
    assert (E : t * exp (- R0) <= 1 - exp (- t)).
    { assert (X := exp_ineq1_le t). assert (P := exp_pos (- t)). assert (M : exp (- R0) <= exp (- t)) by (apply exp_le; lra).
      assert (Y : exp (- t) * exp t = 1) by (rewrite <- exp_plus; replace (- t + t) with 0 by ring; apply exp_0).
      assert (t * exp (- R0) <= t * exp (- t)) by (apply Rmult_le_compat_l; lra). assert (exp (- t) * (1 + t) <= exp (- t) * exp t) by (apply Rmult_le_compat_l; lra). lra. }
    assert (g * (t * exp (- R0)) <= g * (1 - exp (- t))) by (apply Rmult_le_compat_l; lra). lra.
  Qed.
  (** There is always such a rate. *)
  Lemma wavering_pos j : (exists i, (i < I)%nat /\ 0 < w i) -> 0 < wavering J I w m d j.
  Proof using Hw.
    intros (i & Hi & Wi). unfold wavering.
    assert (P : forall k, 0 < chosen J m d k j * outside_chosen J m d k) by (intro k; apply Rmult_lt_0_compat; [apply chosen_pos|apply outside_unit]).
    eapply Rlt_le_trans; [|apply (sumn_ge_term I (fun k => w k * (chosen J m d k j * outside_chosen J m d k)) i); [|exact Hi]].
    - apply Rmult_lt_0_compat; [exact Wi|apply P].
    - intros k Hk. apply Rmult_le_pos; [exact (Hw k Hk)|left; apply P].
  Qed.
  Lemma ratio_exists : (exists i, (i < I)%nat /\ 0 < w i) -> exists g, 0 < g <= 1 /\ forall j, (j < J)%nat -> g * share_of J I w m d j <= wavering J I w m d j.
  Proof using Hw.
    intro HI. assert (G : forall n, exists g, 0 < g <= 1 /\ forall j, (j < n)%nat -> g * share_of J I w m d j <= wavering J I w m d j); [|exact (G J)].
    induction n as [|n (g & Hg & IH)]; [exists 1; split; [lra|intros; lia]|].
    assert (B := wavering_bounds n). assert (P := wavering_pos n HI). set (s := share_of J I w m d n) in *. set (h := wavering J I w m d n) in *.
    exists (Rmin g (h / s)). assert (R0 : 0 < h / s) by (apply Rdiv_lt_0_compat; lra). assert (M1 := Rmin_l g (h / s)). assert (M2 := Rmin_r g (h / s)).
    split; [split; [apply Rmin_glb_lt; lra|lra]|]. intros j Hj. destruct (Nat.eq_dec j n) as [->|Hne].
    - fold s h. apply Rle_trans with (h / s * s); [apply Rmult_le_compat_r; lra|right; field; lra].
    - eapply Rle_trans; [|apply IH; lia]. apply Rmult_le_compat_r; [|exact M1]. assert (B' := wavering_bounds j). lra.
  Qed.
End Exact.
