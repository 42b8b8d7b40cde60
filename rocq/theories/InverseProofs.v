(** Proofs about how mean utilities depend on shares. *)
From Coq Require Import Reals Lra Lia Arith Bool.
From Verif Require Import Base DemandModel DemandSpec DemandProofs DemandShares.
Local Open Scope R_scope.

Section Inverse.
  Variables (m : market) (a : agents) (safe : bool).
  Hypothesis V : valid_market m.
  Hypothesis A : valid_agents a.
  Hypothesis Hr0 : mH m <> O -> forall h, (h < mH m)%nat -> 0 <= grho m h.

  Lemma inverse_monotone x y : (forall j, (j < mJ m)%nat -> market_shares m a safe x j <= market_shares m a safe y j) ->
    forall j, (j < mJ m)%nat -> x j <= y j.
  Proof.
    intros E j Hj. set (d := maxn (pred (mJ m)) (fun k => x k - y k)).
    assert (HJ := vm_J _ V).
    assert (Hge : forall k, (k < mJ m)%nat -> x k - y k <= d).
    { intros k Hk. apply (maxn_ge (pred (mJ m)) (fun k => x k - y k)). lia. }
    destruct (Rle_lt_dec d 0) as [Hd|Hd]; [assert (Hk := Hge j Hj); lra|]. exfalso.
    destruct (maxn_attained (pred (mJ m)) (fun k => x k - y k)) as [k [Hk Ek]]. fold d in Ek.
    assert (Hk' : (k < mJ m)%nat) by lia.
    destruct (market_shares_compare m a safe x y d k V A Hr0) as [_ S1]; [lra| |exact Hk'|].
    { intros i Hi. assert (Hi' := Hge i Hi). lra. }
    specialize (S1 Hd). replace (x k - y k - d) with 0 in S1 by lra. unfold Rdiv in S1. rewrite Rmult_0_l, exp_0, Rmult_1_r in S1.
    specialize (E k Hk'). lra.
  Qed.

  Lemma inverse_strict x y j : (forall k, (k < mJ m)%nat -> market_shares m a safe x k <= market_shares m a safe y k) -> (j < mJ m)%nat ->
    market_shares m a safe x j < market_shares m a safe y j -> x j < y j.
  Proof.
    intros E Hj S1. assert (L := inverse_monotone x y E). destruct (L j Hj) as [H|H]; [exact H|exfalso].
    destruct (market_shares_compare m a safe x y 0 j V A Hr0) as [C _]; [lra| |exact Hj|].
    { intros k Hk. specialize (L k Hk). lra. }
    rewrite H in C. replace (y j - y j - 0) with 0 in C by lra. unfold Rdiv in C. rewrite Rmult_0_l, exp_0, Rmult_1_r in C. lra.
  Qed.

  (** Larger mean utilities of all products raise shares by no more than in proportion. *)
  Lemma shift_shares x t r j : 0 <= t -> r < 1 -> (mH m <> O -> forall h, (h < mH m)%nat -> grho m h <= r) -> (mH m = O -> 0 <= r) -> (j < mJ m)%nat ->
    market_shares m a safe (fun k => x k + eps_scale m * (1 - r) * t) j <= exp t * market_shares m a safe x j.
  Proof.
    intros Ht Hr Hu H0 Hj. set (s := eps_scale m * (1 - r) * t). assert (He := vm_eps _ V).
    assert (Hs : 0 <= s) by (unfold s; apply Rmult_le_pos; [apply Rmult_le_pos; lra|exact Ht]).
    destruct (market_shares_compare m a safe x (fun k => x k + s) 0 j V A Hr0) as [C _]; [lra| |exact Hj|].
    { intros k _. lra. }
    assert (P := market_shares_pos m a safe x j V A Hj).
    assert (G : grhox m (gidx m j) <= r /\ grhox m (gidx m j) < 1).
    { unfold grhox, gidx. destruct (Nat.eqb_spec (mH m) 0) as [HH|HH].
      - split; [exact (H0 HH)|lra].
      - split; [apply Hu; [exact HH|apply (vm_gid _ V HH); exact Hj]|apply (vm_rho _ V HH), (vm_gid _ V HH); exact Hj]. }
    set (g := grhox m (gidx m j)) in *.
    replace (x j - (x j + s) - 0) with (- s) in C by lra.
    assert (Q : - t <= - s / (eps_scale m * (1 - g))).
    { unfold s. replace (- (eps_scale m * (1 - r) * t) / (eps_scale m * (1 - g))) with (- (t * ((1 - r) / (1 - g)))) by (field; lra).
      assert ((1 - r) / (1 - g) <= 1).
      { apply Rmult_le_reg_r with (1 - g); [lra|]. replace ((1 - r) / (1 - g) * (1 - g)) with (1 - r) by (field; lra). lra. }
      assert (0 <= (1 - r) / (1 - g)). { unfold Rdiv. apply Rmult_le_pos; [lra|left; apply Rinv_0_lt_compat; lra]. }
      nra. }
    apply exp_le in Q. rewrite exp_Ropp in Q.
    set (sy := market_shares m a safe (fun k => x k + s) j) in *. set (sx := market_shares m a safe x j) in *.
    assert (Pt := exp_pos t). assert (Py : 0 <= sy).
    { left. apply (market_shares_pos m a safe _ j V A Hj). }
    assert (sy * / exp t <= sx) by (apply Rle_trans with (2 := C); apply Rmult_le_compat_l; assumption).
    apply Rmult_le_reg_r with (/ exp t); [apply Rinv_0_lt_compat; exact Pt|].
    replace (exp t * sx * / exp t) with sx by (field; lra). assumption.
  Qed.

  Lemma market_size_bound x y c r : 1 <= c -> r < 1 -> (mH m <> O -> forall h, (h < mH m)%nat -> grho m h <= r) -> (mH m = O -> 0 <= r) ->
    (forall j, (j < mJ m)%nat -> market_shares m a safe y j = c * market_shares m a safe x j) ->
    forall j, (j < mJ m)%nat -> x j + eps_scale m * (1 - r) * ln c <= y j.
  Proof.
    intros Hc Hr Hu H0 E j Hj. apply (inverse_monotone (fun k => x k + eps_scale m * (1 - r) * ln c) y); [|exact Hj].
    intros k Hk. rewrite (E k Hk).
    replace (c * market_shares m a safe x k) with (exp (ln c) * market_shares m a safe x k) by (rewrite exp_ln by lra; reflexivity).
    apply shift_shares; try assumption. rewrite <- ln_1. destruct Hc as [Hc|<-]; [left; apply ln_increasing; lra|right; reflexivity].
  Qed.
End Inverse.

Lemma gsum_mult m f c h : gsum m (fun j => c * f j) h = c * gsum m f h.
Proof.
  unfold gsum. rewrite <- sumn_scal. apply sumn_ext. intros k _. destruct (Nat.eqb (gid m k) h); ring.
Qed.

Lemma gsum_own_pos m f j : (forall k, (k < mJ m)%nat -> 0 < f k) -> (j < mJ m)%nat -> 0 < gsum m f (gid m j).
Proof.
  intros P Hj. unfold gsum. apply sumn_pos.
  - intros k Hk. destruct (Nat.eqb (gid m k) (gid m j)); [left; apply P; exact Hk|lra].
  - exists j. split; [exact Hj|]. rewrite Nat.eqb_refl. apply P; exact Hj.
Qed.

Lemma closed_form_size m shares c : (forall j, (j < mJ m)%nat -> 0 < shares j) -> 0 < c -> sumn (mJ m) shares < 1 -> c * sumn (mJ m) shares < 1 ->
  forall j, (j < mJ m)%nat ->
  closed_form_delta m (fun k => c * shares k) j =
  closed_form_delta m shares j + eps_scale m * ln (c * (1 - sumn (mJ m) shares) / (1 - c * sumn (mJ m) shares)).
Proof.
  intros P Hc S1 S2 j Hj. unfold closed_form_delta. rewrite sumn_scal, gsum_mult.
  assert (G := gsum_own_pos m shares j P Hj). assert (Pj := P j Hj).
  assert (E : ln (c * (1 - sumn (mJ m) shares) / (1 - c * sumn (mJ m) shares)) = ln c + ln (1 - sumn (mJ m) shares) - ln (1 - c * sumn (mJ m) shares)).
  { unfold Rdiv. rewrite ln_mult, ln_mult, ln_Rinv; try lra. - apply Rmult_lt_0_compat; lra. - apply Rinv_0_lt_compat; lra. }
  rewrite E, !ln_mult by assumption.
  destruct (Req_EM_T (eps_scale m) 1) as [e|N]; [rewrite e|]; destruct (Nat.eqb (mH m) 0); ring.
Qed.
