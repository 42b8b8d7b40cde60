(** Errors of the contraction in floating point arithmetic, and what they mean for mean utilities that it gives. *)
From Coq Require Import Reals Lra Lia List Bool Arith Sorting.Permutation.
From Verif Require Import Base FltModel IterModel RoundModel RoundSpec RoundProofs RoundNested RoundContraction RoundAccuracy DemandSpec RateSpec RateProofs.
Import ListNotations.
Local Open Scope R_scope.

Lemma log_share_close S c g : 0 < S <= 1 -> 0 < c -> 0 <= g <= 1 -> Rabs (ln S - ln c) <= g -> Rabs (S - c) <= 3 * g * S /\ c <= 3.
Proof.
  intros HS Hc Hg H. apply abs_between in H.
  assert (E : c = S * exp (ln c - ln S)) by (unfold Rminus; rewrite exp_plus, exp_Ropp, !exp_ln by lra; field; lra).
  assert (X3 := exp_le_3). set (z := ln c - ln S) in *. assert (Z : - g <= z <= g) by (unfold z; lra).
  assert (Ez := exp_le z 1 ltac:(lra)).
  assert (D : Rabs (exp z - 1) <= 3 * g).
  { destruct (Rle_dec 0 z) as [L|L].
    - assert (Q := exp_diff 0 z L). rewrite exp_0 in Q. rewrite Rabs_pos_eq by lra.
      assert (exp z * (z - 0) <= 3 * g) by (apply Rmult_le_compat; [left; apply exp_pos|lra|lra|lra]). lra.
    - assert (Q := exp_diff z 0 ltac:(lra)). rewrite exp_0 in Q. rewrite Rabs_left1 by lra. lra. }
  split.
  - rewrite E. replace (S - S * exp z) with (- (S * (exp z - 1))) by ring. rewrite Rabs_Ropp, Rabs_mult, (Rabs_pos_eq S) by lra.
    rewrite (Rmult_comm (3 * g)). apply Rmult_le_compat_l; [lra|exact D].
  - rewrite E. assert (S * exp z <= 1 * 3) by (apply Rmult_le_compat; [lra|left; apply exp_pos|lra|lra]). lra.
Qed.

Section Step.
  Variables (A : arithmetic) (N : nat) (eps eta : R).
  Hypothesis HR : rounds A N.
  Hypothesis HE : exponential A.
  Hypothesis HL : logarithm A.
  Hypothesis HA : accurate A eps eta.
  Hypothesis HG : accurate_log A eps.
  Variables (J I M Q C : nat) (t agents : tree) (m : nat -> nat -> R) (w S : nat -> R) (b : R).
  Hypothesis HD : market_data A N J I M 1 Q C agents (fun i k => Num (m i k)) (fun i => Num (w i)) (fun j => Num (S j)) (Some (Num b)) None.
  Hypothesis Hw : forall i, (i < I)%nat -> 0 <= w i.
  Hypothesis Ht : adds_up t J.
  Hypothesis HJ : (Datatypes.S J <= N)%nat.
  Let nxt (x : nat -> R) (j : nat) : flt :=
    next A J t agents true (fun i k => Num (m i k)) (fun i => Num (w i)) (fun j => Num (S j)) (Some (Num b)) None (fun k => Num (x k)) j.
  Let W : R := sumn I w.
  Lemma w_unit i : (i < I)%nat -> 0 <= w i <= 1.
  Proof using HD Hw.
    intro Hi. split; [exact (Hw i Hi)|]. destruct (data_weights _ _ _ _ _ _ _ _ _ _ _ _ _ _ HD i Hi) as (r & E & H). injection E as E. rewrite <- E in H. cbn [INR] in H. lra.
  Qed.
  Lemma W_nonneg : 0 <= W.
  Proof using Hw. apply sumn_nonneg. exact Hw. Qed.
  Lemma b_pos : 0 < b.
  Proof using HD. destruct (data_lower _ _ _ _ _ _ _ _ _ _ _ _ _ _ HD) as (lo & E & r & El & Hr & _). rewrite El in E. injection E as E. rewrite E. exact Hr. Qed.
  Lemma share_pos j : (j < J)%nat -> 0 < S j.
  Proof using HD. intro Hj. destruct (data_shares _ _ _ _ _ _ _ _ _ _ _ _ _ _ HD j Hj) as (r & E & Hr & _). injection E as E. rewrite E. exact Hr. Qed.
  Lemma log_near n r : (n <= N)%nat -> 0 < r -> - INR n <= Log A r <= INR n ->
    exists l, rlog A (Num r) = Num l /\ - INR n <= l <= INR n /\ Rabs (l - ln r) <= (3 * INR n + 1) * eps.
  Proof using HR HA HG.
    intros Hn Hr Hl. assert (Qe := eps_pos A eps eta HA). assert (Q1 := eps_small _ _ _ HA). assert (Q2 := eta_small _ _ _ HA).
    destruct (round_within A N HR n (Log A r) Hn Hl) as (E & B & _). exists (rnd A (Log A r)). cbn [rlog].
    destruct (Rlt_dec r 0); [lra|]. destruct (Req_EM_T r 0); [lra|]. split; [exact E|]. split; [exact B|].
    assert (E1 := rnd_error _ _ _ HA (Log A r)). assert (E2 := HG r Hr). apply Rabs_le in Hl.
    assert (B2 : Rabs (ln r) <= 2 * INR n).
    { assert (T := Rabs_triang_inv (ln r) (Log A r)). rewrite (Rabs_minus_sym (ln r)) in T. assert (P := Rabs_pos (ln r)).
      assert (eps * Rabs (ln r) <= / 8 * Rabs (ln r)) by (apply Rmult_le_compat_r; lra). lra. }
    assert (eps * Rabs (Log A r) <= eps * INR n) by (apply Rmult_le_compat_l; lra).
    assert (eps * Rabs (ln r) <= eps * (2 * INR n)) by (apply Rmult_le_compat_l; lra).
    replace (rnd A (Log A r) - ln r) with ((rnd A (Log A r) - Log A r) + (Log A r - ln r)) by ring.
    eapply Rle_trans; [apply Rabs_triang|]. lra.
  Qed.
  Lemma rounded_sum n u : (n <= N)%nat -> - INR n <= u <= INR n ->
    round A (Num u) = Num (rnd A u) /\ - INR n <= rnd A u <= INR n /\ Rabs (rnd A u - u) <= (INR n + 1) * eps.
  Proof using HR HA.
    intros Hn Hu. assert (Qe := eps_pos A eps eta HA). assert (Q2 := eta_small _ _ _ HA).
    destruct (round_within A N HR n u Hn Hu) as (E & B & _). split; [exact E|]. split; [exact B|].
    assert (E1 := rnd_error _ _ _ HA u). apply Rabs_le in Hu. assert (eps * Rabs u <= eps * INR n) by (apply Rmult_le_compat_l; lra). lra.
  Qed.

  Lemma step_error X x j : (2 * (X + M) <= N)%nat -> (X + Q + C <= N)%nat -> (forall k, (k < J)%nat -> - INR X <= x k <= INR X) -> (j < J)%nat ->
    exists n s c, nxt x j = Num n /\ 0 < c /\ s <= c /\ (c = s \/ (s < b /\ c = b)) /\
      Rabs (s - share_of J I w m x j) <= (W * (10 * (INR J + 2) + 2 * INR (X + M) + 3) + 5 * INR I * Rmax 1 s) * eps /\
      Rabs (ln (S j) - ln c - (n - x j)) <= (2 * INR X + 5 * INR Q + 4 * INR C + 4) * eps.
  Proof using HR HE HL HA HG HD Hw Ht HJ.
    intros HM HN Hx Hj. assert (HI := data_agents _ _ _ _ _ _ _ _ _ _ _ _ _ _ HD).
    assert (IN : (I <= N)%nat) by (assert (G := data_size _ _ _ _ _ _ _ _ _ _ _ _ _ _ HD); clear - G; lia).
    assert (Hm : forall i k, (i < I)%nat -> (k < J)%nat -> - INR M <= m i k <= INR M).
    { intros i k Hi Hk. destruct (data_mu _ _ _ _ _ _ _ _ _ _ _ _ _ _ HD i k Hi Hk) as (r & E & H). injection E as E. rewrite <- E in H. exact H. }
    destruct (share_error A N eps eta HR HE HA J I X M t agents x w m j Ht HI HJ IN HM Hx Hm w_unit Hj) as (s & Es & Ds).
    set (c := if Rlt_dec s b then b else s).
    assert (Pb := b_pos). assert (Sc : s <= c) by (unfold c; destruct (Rlt_dec s b); lra).
    assert (Pc : 0 < c) by (unfold c; destruct (Rlt_dec s b); lra).
    assert (Ec : c = s \/ (s < b /\ c = b)) by (unfold c; destruct (Rlt_dec s b); [right; auto|left; auto]).
    assert (Clip : clip_above None (clip_below (Some (Num b)) (Num s)) = Num c).
    { unfold clip_above, clip_below. cbn [fltb]. unfold rltb, c. destruct (Rlt_dec s b); reflexivity. }
    assert (Lc : - INR C <= Log A c <= INR C).
    { destruct (data_lower _ _ _ _ _ _ _ _ _ _ _ _ _ _ HD) as (lo & E & r & El & Hr & HC). rewrite El in E. injection E as E. rewrite <- E in Hr, HC. clear r lo El E.
      destruct Ec as [Ec|[_ Ec]]; [|rewrite Ec; exact HC].
      assert (sI : s <= INR I).
      { destruct (rsum_within A N HR agents (fun i => rmul A (choice A J t true (fun i k => Num (m i k)) (fun k => Num (x k)) i j) (Num (w i))) 1) as (v & Ev & Hv & _).
        - rewrite (adds_length agents I HI). clear - IN. lia.
        - intros i Hi. apply (adds_In agents I HI) in Hi.
          destruct (probability_upto A N HR HE J t (utility A (fun i k => Num (m i k)) (fun k => Num (x k)) i) j Ht HJ) as (p & Ep & Hp & _).
          + intros k Hk. destruct (radd_bounded A N HR X M (Num (x k)) (Num (m i k))) as (r & E & _); [clear - HM; lia|eexists; split; [reflexivity|exact (Hx k Hk)]|eexists; split; [reflexivity|exact (Hm i k Hi Hk)]|].
            exists r. exact E.
          + exact Hj.
          + assert (Wi := w_unit i Hi). unfold choice. rewrite Ep. unfold rmul. cbn [fmul]. eexists. apply (round_within A N HR); [clear - HJ; lia|].
            cbn [INR] in *. split; [assert (0 <= p * w i) by (apply Rmult_le_pos; lra); lra|]. assert (p * w i <= 1 * 1) by (apply Rmult_le_compat; lra). lra.
        - rewrite (adds_length agents I HI), Nat.mul_1_l in Hv. unfold market_share in Es. rewrite Ev in Es. injection Es as <-. exact (proj2 Hv). }
      assert (HT := data_total _ _ _ _ _ _ _ _ _ _ _ _ _ _ HD). rewrite Nat.mul_1_l in HT.
      assert (L1 := log_mono _ HL b c Hr). assert (bc : b <= c) by (unfold c; destruct (Rlt_dec s b); lra). specialize (L1 bc).
      assert (L2 := log_mono _ HL c (INR I) Pc ltac:(lra)). lra. }
    destruct (log_near C c ltac:(clear - HN; lia) Pc Lc) as (lc & Elc & Blc & Dlc).
    destruct (data_shares _ _ _ _ _ _ _ _ _ _ _ _ _ _ HD j Hj) as (Sj & ES & PS & LS). injection ES as ES. rewrite <- ES in PS, LS.
    destruct (log_near Q (S j) ltac:(clear - HN; lia) PS LS) as (ls & Els & Bls & Dls).
    specialize (Hx j Hj).
    destruct (rounded_sum (X + Q) (x j + ls)) as (E1 & B1 & D1); [clear - HN; lia|rewrite plus_INR; lra|]. set (a := rnd A (x j + ls)) in *.
    destruct (rounded_sum (X + Q + C) (a + - lc)) as (E2 & B2 & D2); [clear - HN; lia|rewrite (plus_INR (X + Q)); lra|]. set (n := rnd A (a + - lc)) in *.
    exists n, s, c. split.
    { unfold nxt, next, log_share. rewrite Es, Clip, Elc, Els. unfold radd, rsub, fsub. cbn [fadd fneg]. rewrite E1. cbn [fadd]. exact E2. }
    split; [exact Pc|]. split; [exact Sc|]. split; [exact Ec|]. split; [exact Ds|].
    rewrite !plus_INR in *. apply abs_between in D1, D2, Dlc, Dls. apply Rabs_le. lra.
  Qed.

  (** Mean utilities that the contraction changes by at most tol reproduce shares. *)
  Lemma small_change_shares X tol x n : (2 * (X + M) <= N)%nat -> (X + Q + C <= N)%nat -> (forall k, (k < J)%nat -> - INR X <= x k <= INR X) ->
    (forall j, (j < J)%nat -> S j <= 1) -> tol + (2 * INR X + 5 * INR Q + 4 * INR C + 4) * eps <= 1 ->
    (forall j, (j < J)%nat -> nxt x j = Num (n j) /\ Rabs (n j - x j) <= tol) ->
    forall j, (j < J)%nat -> Rabs (share_of J I w m n j - S j) <=
      3 * (tol + (2 * INR X + 5 * INR Q + 4 * INR C + 4) * eps) + b + 2 * ((W * (10 * (INR J + 2) + 2 * INR (X + M) + 3) + 15 * INR I) * eps) + 2 * W * tol.
  Proof using HR HE HL HA HG HD Hw Ht HJ.
    intros HM HN Hx HS Hone Hn j Hj. set (k1 := (2 * INR X + 5 * INR Q + 4 * INR C + 4) * eps) in *.
    assert (Qe := eps_pos A eps eta HA). assert (PX := pos_INR X). assert (PQ := pos_INR Q). assert (PC := pos_INR C). assert (PI := pos_INR I).
    assert (K1 : 0 <= k1) by (apply Rmult_le_pos; lra). assert (tol0 : 0 <= tol) by (destruct (Hn j Hj) as [_ G]; eapply Rle_trans; [apply Rabs_pos|exact G]).
    assert (PW := W_nonneg). assert (Pb := b_pos). assert (HSj := HS j Hj). assert (PS := share_pos j Hj).
    destruct (step_error X x j HM HN Hx Hj) as (nj & s & c & En & Pc & Sc & Ec & Ds & Dn).
    destruct (Hn j Hj) as [En' Dj]. rewrite En in En'. injection En' as En'. rewrite En' in Dn.
    destruct (log_share_close (S j) c (tol + k1)) as [DC C3]; [lra|exact Pc|lra| |].
    { replace (ln (S j) - ln c) with ((ln (S j) - ln c - (n j - x j)) + (n j - x j)) by ring. eapply Rle_trans; [apply Rabs_triang|]. unfold k1. lra. }
    assert (DC' : Rabs (S j - c) <= 3 * (tol + k1)).
    { eapply Rle_trans; [exact DC|]. assert (3 * (tol + k1) * S j <= 3 * (tol + k1) * 1) by (apply Rmult_le_compat_l; lra). lra. }
    set (k2 := (W * (10 * (INR J + 2) + 2 * INR (X + M) + 3) + 15 * INR I) * eps) in *.
    assert (Ds' : Rabs (s - share_of J I w m x j) <= k2).
    { eapply Rle_trans; [exact Ds|]. unfold k2. apply Rmult_le_compat_r; [exact Qe|]. apply Rplus_le_compat_l.
      assert (Rmax 1 s <= 3) by (apply Rmax_lub; lra). assert (INR I * Rmax 1 s <= INR I * 3) by (apply Rmult_le_compat_l; lra). lra. }
    assert (Px : 0 <= share_of J I w m x j) by (apply sumn_nonneg; intros i Hi; apply Rmult_le_pos; [exact (Hw i Hi)|left; apply chosen_pos]).
    assert (DB : Rabs (c - s) <= b + k2).
    { apply abs_between in Ds'. apply Rabs_le. destruct Ec as [-> |[L ->]]; [|lra].
      assert (0 <= k2) by lra. lra. }
    assert (DX : Rabs (share_of J I w m n j - share_of J I w m x j) <= 2 * W * tol).
    { unfold share_of. rewrite <- sumn_minus. replace (2 * W * tol) with (sumn I (fun i => 2 * tol * w i)) by (rewrite sumn_scal; unfold W; change (sumn I (fun i => w i)) with (sumn I w); ring).
      refine (sumn_abs_le I _ _ _). intros i Hi.
      replace (w i * chosen J m n i j - w i * chosen J m x i j) with ((chosen J m n i j - chosen J m x i j) * w i) by ring.
      rewrite Rabs_mult, (Rabs_pos_eq (w i)) by exact (Hw i Hi). apply Rmult_le_compat_r; [exact (Hw i Hi)|].
      apply logit_lipschitz; [exact Hj|]. intros k Hk. replace (n k + m i k - (x k + m i k)) with (n k - x k) by ring. apply Hn, Hk. }
    apply abs_between in DC', Ds', DB, DX. apply Rabs_le. lra.
  Qed.
End Step.
