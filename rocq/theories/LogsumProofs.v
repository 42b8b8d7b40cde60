(** Consumer surplus in floating point arithmetic. *)
From Coq Require Import Reals Lra Lia List Bool Arith Sorting.Permutation.
From Verif Require Import Base FltModel IterModel RoundModel RoundSpec RoundProofs RoundNested RoundAccuracy LogsumModel LogsumSpec.
Import ListNotations.
Local Open Scope R_scope.

Section Logsum.
  Variables (A : arithmetic) (N : nat).
  Hypothesis HR : rounds A N.
  Hypothesis HE : exponential A.
  Hypothesis HL : logarithm A.

  (** The numerator given a scale of [- r] and sums between one and [n]. *)
  Lemma numerator_bounds n U L r o s : (n <= N)%nat -> (1 <= n)%nat -> (U + L <= N)%nat -> 0 <= r <= INR U -> Log A (INR n) <= INR L ->
    rexp A (Num (- r)) = Num o -> 0 <= o -> 0 <= s -> o + s <= INR n -> 1 <= o + s ->
    exists v, numerator A (Num (- r)) (Num s) = Num v /\ rnd A r <= v <= INR (U + L) /\ 0 <= v /\
      v = rnd A (rnd A (Log A (rnd A (o + s))) + r) /\ 1 <= rnd A (o + s) <= INR n.
  Proof.
    intros Hn H1 HN Hr HLn Eo Ho Hs Hsum Hone. unfold numerator. rewrite Eo. unfold radd. cbn [fadd].
    destruct (round_upto A N HR n (o + s) Hn ltac:(lra)) as (E & B & _). rewrite E.
    assert (D1 : 1 <= rnd A (o + s)). { rewrite <- (rounds_nat _ _ HR 1%nat ltac:(lia) : rnd A 1 = 1). apply (rounds_mono _ _ HR). exact Hone. }
    cbn [rlog]. destruct (Rlt_dec (rnd A (o + s)) 0); [lra|]. destruct (Req_EM_T (rnd A (o + s)) 0); [lra|].
    assert (L0 : 0 <= Log A (rnd A (o + s))) by (rewrite <- (log_one _ HL); apply (log_mono _ HL); lra).
    assert (L1 : Log A (rnd A (o + s)) <= INR L) by (eapply Rle_trans; [apply (log_mono _ HL); [lra|apply B]|exact HLn]).
    destruct (round_upto A N HR L (Log A (rnd A (o + s))) ltac:(lia) ltac:(lra)) as (El & Bl & _). rewrite El.
    unfold rsub, fsub. cbn [fneg fadd]. rewrite Ropp_involutive.
    destruct (round_upto A N HR (U + L) (rnd A (Log A (rnd A (o + s))) + r) HN) as (Ev & Bv & _); [rewrite plus_INR; lra|].
    eexists. split; [exact Ev|]. split; [|split; [apply Bv|split; [reflexivity|split; [exact D1|apply B]]]].
    split; [apply (rounds_mono _ _ HR); lra|apply Bv].
  Qed.

  Section Plain.
    Variables (J U L : nat) (t : tree) (included : nat -> bool) (v : nat -> R).
    Hypothesis Ht : adds_up t J.
    Hypothesis HJ : (S J <= N)%nat.
    Hypothesis HUL : (U + L <= N)%nat.
    Hypothesis HLJ : Log A (INR (S J)) <= INR L.
    Hypothesis Hv : forall k, (k < J)%nat -> v k <= INR U.
    Hypothesis HC : best_remains J included v.
    Let u : nat -> flt := fun k => Num (v k).
    Lemma is_num : forall k, (k < J)%nat -> exists r, u k = Num r.
    Proof. intros k _. exists (v k). reflexivity. Qed.

    Lemma plain_terms : exists r0 o s, reduction J u = Num r0 /\ 0 <= r0 <= INR U /\ (forall k, (k < J)%nat -> v k <= r0) /\
      rexp A (Num (- r0)) = Num o /\ 0 <= o <= 1 /\ rsum A t (exp_utility A J included u true) = Num s /\ 0 <= s <= INR J /\ 1 <= o + s.
    Proof.
      assert (N1 : (1 <= N)%nat) by (clear - HJ; lia). destruct (reduction_spec J u is_num) as (r0 & E0 & H0 & HM & HT).
      destruct (rsum_upto A N HR t (exp_utility A J included u true) 1) as (s & (Es & Hs & _) & Ls).
      { rewrite (adds_length t J Ht). clear - HJ. lia. }
      { intros i Hi. apply (exp_utility_upto A N HR HE J u is_num included i N1). apply (adds_In t J Ht), Hi. }
      rewrite (adds_length t J Ht), Nat.mul_1_l in Hs.
      destruct (rexp_nonpos A N HR HE (Num (- r0)) N1) as (o & Eo & Ho & _); [right; exists (- r0); split; [reflexivity|lra]|]. cbn [INR] in Ho.
      exists r0, o, s. split; [exact E0|]. split; [split; [exact H0|]|].
      { destruct HT as [->|(k & Hk & Ek)]; [apply pos_INR|]. injection Ek as <-. apply Hv, Hk. }
      split; [intros k Hk; exact (HM k (v k) Hk eq_refl)|]. split; [exact Eo|]. split; [exact Ho|]. split; [exact Es|]. split; [exact Hs|].
      destruct HC as [Hle|(k & Hk & Hin & Hm & Hle)].
      - assert (Z : r0 = 0) by (destruct HT as [Z|(k & Hk & Ek)]; [exact Z|injection Ek as <-; specialize (Hle k Hk); lra]).
        rewrite Z, Ropp_0, (rexp_zero A N HR HE N1) in Eo. injection Eo as <-. lra.
      - assert (Z : r0 = v k). { apply Rle_antisym; [|exact (HM k (v k) Hk eq_refl)]. destruct HT as [->|(k' & Hk' & Ek')]; [exact Hm|injection Ek' as <-; exact (Hle k' Hk')]. }
        assert (T := exp_utility_top A N HR HE J u included k r0 N1 Hin E0 ltac:(rewrite Z; reflexivity)).
        assert (Q := Ls k 1 (proj2 (adds_In t J Ht k) Hk) T). lra.
    Qed.

    Lemma plain_bounds : exists x, plain_numerator A J t included u = Num x /\ 0 <= x <= INR (U + L) /\ (forall k, (k < J)%nat -> rnd A (v k) <= x).
    Proof.
      destruct plain_terms as (r0 & o & s & E0 & H0 & HM & Eo & Ho & Es & Hs & One).
      destruct (numerator_bounds (S J) U L r0 o s HJ ltac:(clear; lia) HUL H0 HLJ Eo ltac:(lra) ltac:(lra) ltac:(rewrite S_INR; lra) One) as (x & Ex & Bx & Px & _).
      exists x. unfold plain_numerator. rewrite E0, Es. cbn [fneg]. split; [exact Ex|]. split; [lra|].
      intros k Hk. apply Rle_trans with (rnd A r0); [apply (rounds_mono _ _ HR), HM, Hk|apply Bx].
    Qed.

    (** Accuracy. *)
    Variables eps eta : R.
    Hypothesis HA : accurate A eps eta.
    Hypothesis HLA : log_accurate A eps.
    Hypothesis HV : forall k, (k < J)%nat -> - INR U <= v k.
    Hypothesis HU2 : (2 * U <= N)%nat.
    Hypothesis Hsize : 20 * (INR J + 1) * eps <= 1.

    Lemma plain_sum r0 o s : reduction J u = Num r0 -> 0 <= r0 <= INR U -> (forall k, (k < J)%nat -> v k <= r0) ->
      rexp A (Num (- r0)) = Num o -> rsum A t (exp_utility A J included u true) = Num s -> 0 <= s -> 0 <= o <= 1 -> 1 <= o + s ->
      let D := exp (- r0) + sumn J (fun k => if included k then exp (v k - r0) else 0) in
      Rabs (D - rnd A (o + s)) <= 10 * (INR J + 1) * eps * rnd A (o + s) /\ (o + s <= INR J + 1) /\ 1 <= D.
    Proof.
      intros E0 H0 HM Eo Es Hs Ho One D. assert (N1 : (1 <= N)%nat) by (clear - HJ; lia).
      assert (Qe := eps_pos A eps eta HA). assert (Q1 := eps_small _ _ _ HA). assert (Q2 := eta_small _ _ _ HA).
      set (e := fun k => if included k then exp (v k - r0) else 0) in *.
      assert (X : forall k, (k < J)%nat -> exists r, upto A 1 (exp_utility A J included u true k) r /\ Rabs (r - e k) <= 6 * eps).
      { intros k Hk. unfold exp_utility, e. destruct (included k).
        - rewrite E0. unfold u, rsub, fsub. cbn [fneg fadd]. assert (HZ := HM k Hk). assert (V1 := HV k Hk). assert (V2 := Hv k Hk).
          destruct (round_within A N HR (2 * U) (v k + - r0) HU2) as (Er & _); [rewrite mult_INR; cbn [INR]; lra|]. rewrite Er.
          apply (rexp_error A N eps eta HR HE HA); [exact N1|lra|apply (rnd_nonpos A N HR); lra|]. apply (rnd_error _ _ _ HA (v k - r0)).
        - exists 0. split; [split; [reflexivity|]; split; [cbn [INR]; lra|exact (rnd_zero A N HR)]|]. rewrite Rminus_0_r, Rabs_R0. lra. }
      destruct (rexp_error A N eps eta HR HE HA (- r0) (- r0) N1 ltac:(lra) ltac:(lra)) as (o2 & (Eo2 & _) & Do).
      { rewrite Rminus_diag_eq by reflexivity. rewrite Rabs_R0. assert (0 <= eps * Rabs (- r0)) by (apply Rmult_le_pos; [exact Qe|apply Rabs_pos]). lra. }
      rewrite Eo in Eo2. injection Eo2 as <-.
      set (e' := fun k => match exp_utility A J included u true k with Num r => r | _ => 0 end).
      assert (Xe : forall k, (k < J)%nat -> exp_utility A J included u true k = Num (e' k) /\ 0 <= e' k <= 1 /\ rnd A (e' k) = e' k /\ Rabs (e' k - e k) <= 6 * eps).
      { intros k Hk. destruct (X k Hk) as (r & (Er & Br & Rr) & Dr). unfold e'. rewrite Er. auto. }
      assert (HI := adds_In t J Ht). assert (HLn := adds_length t J Ht).
      destruct (rsum_error A N eps eta HR HA t (exp_utility A J included u true) e') as (s2 & Es2 & Bs & Rs & Ds).
      { rewrite HLn. clear - HJ. lia. }
      { intros i Hi. apply HI in Hi. destruct (Xe i Hi) as (? & ? & ? & _). auto. }
      rewrite Es in Es2. injection Es2 as <-.
      assert (De : Rabs (lsum (leaves t) e' - lsum (leaves t) e) <= INR J * (6 * eps)).
      { rewrite <- HLn. apply lsum_error. intros i Hi. apply HI in Hi. destruct (Xe i Hi) as (_ & _ & _ & Q). exact Q. }
      rewrite HLn in Bs, Ds. rewrite (lsum_perm _ _ e Ht), lsum_seq in De.
      set (D' := rnd A (o + s)).
      assert (D1' : 1 <= D') by (unfold D'; rewrite <- (rounds_nat _ _ HR 1%nat N1 : rnd A 1 = 1); apply (rounds_mono _ _ HR); exact One).
      assert (Ls : s <= D') by (unfold D'; rewrite <- Rs at 1; apply (rounds_mono _ _ HR); lra).
      assert (PJ : 0 <= INR J) by apply pos_INR.
      assert (PJ1 : 1 <= INR J). { rewrite <- HLn. apply leaves_pos. }
      assert (e_nonneg : forall k, 0 <= e k) by (intro k; unfold e; destruct (included k); [left; apply exp_pos|lra]).
      split; [|split].
      - assert (R1 := result_error A eps eta HA (o + s)). fold D' in R1. rewrite (Rabs_pos_eq D') in R1 by lra.
        assert (M : (INR J - 1) * (2 * eps * s + 2 * eta) <= (INR J - 1) * (2 * eps * D' + 2 * eta)).
        { apply Rmult_le_compat_l; [lra|]. assert (eps * s <= eps * D') by (apply Rmult_le_compat_l; lra). lra. }
        assert (M2 : 2 * eps * D' + 2 * eta <= 4 * eps * D') by (assert (eps * 1 <= eps * D') by (apply Rmult_le_compat_l; lra); lra).
        assert (M3 : INR J * (2 * eps * D' + 2 * eta) <= INR J * (4 * eps * D')) by (apply Rmult_le_compat_l; lra).
        assert (M4 : (INR J + 1) * (6 * eps) * 1 <= (INR J + 1) * (6 * eps) * D') by (apply Rmult_le_compat_l; [apply Rmult_le_pos; lra|lra]).
        replace (D - D') with (- (D' - (o + s)) + (- (o - exp (- r0)) + (- (s - lsum (leaves t) e') + - (lsum (leaves t) e' - sumn J e)))) by (unfold D; ring).
        eapply Rle_trans; [apply Rabs_triang|]. rewrite Rabs_Ropp.
        assert (T1 := Rabs_triang (- (o - exp (- r0))) (- (s - lsum (leaves t) e') + - (lsum (leaves t) e' - sumn J e))). rewrite Rabs_Ropp in T1.
        assert (T2 := Rabs_triang (- (s - lsum (leaves t) e')) (- (lsum (leaves t) e' - sumn J e))). rewrite !Rabs_Ropp in T2.
        assert (0 <= eps * D') by (apply Rmult_le_pos; lra). assert (0 <= INR J * (eps * D')) by (apply Rmult_le_pos; lra). lra.
      - lra.
      - assert (NS : 0 <= sumn J e) by (apply sumn_nonneg; auto). assert (PE := exp_pos (- r0)). destruct (reduction_spec J u is_num) as (r1 & E1 & _ & _ & HT).
        rewrite E0 in E1. injection E1 as <-. destruct HC as [Hle|(k & Hk & Hin & Hm & Hle)].
        + assert (Z : r0 = 0) by (destruct HT as [Z|(k & Hk & Ek)]; [exact Z|injection Ek as <-; specialize (Hle k Hk); lra]).
          unfold D. rewrite Z, Ropp_0, exp_0. lra.
        + assert (Z : r0 = v k). { apply Rle_antisym; [|exact (HM k Hk)]. destruct HT as [->|(k' & Hk' & Ek')]; [exact Hm|injection Ek' as <-; exact (Hle k' Hk')]. }
          assert (e1 : e k = 1) by (unfold e; rewrite Hin, Z, Rminus_diag_eq by reflexivity; apply exp_0).
          assert (G := sumn_ge_term J e k (fun i _ => e_nonneg i) Hk). unfold D. lra.
    Qed.

    Lemma ln_ratio a b : 0 < a -> 0 < b -> ln a - ln b <= a / b - 1.
    Proof.
      intros Ha Hb. assert (E := exp_ineq1_le (ln a - ln b)). replace (ln a - ln b) with (ln a + - ln b) in E by ring. rewrite exp_plus, exp_Ropp, !exp_ln in E by assumption. unfold Rdiv. lra.
    Qed.

    Lemma plain_accuracy : exists x, plain_numerator A J t included u = Num x /\
      Rabs (x - expected_maximum J included v) <= 5 * eps * (expected_maximum J included v + 4 * INR J + 6).
    Proof.
      destruct plain_terms as (r0 & o & s & E0 & H0 & HM & Eo & Ho & Es & Hs & One).
      destruct (plain_sum r0 o s E0 H0 HM Eo Es ltac:(lra) Ho One) as (DD & Bd & D1). cbv zeta in *.
      destruct (numerator_bounds (S J) U L r0 o s HJ ltac:(clear; lia) HUL H0 HLJ Eo ltac:(lra) ltac:(lra) ltac:(rewrite S_INR; lra) One) as (x & Ex & Bx & Px & Vx & D1').
      exists x. unfold plain_numerator. rewrite E0, Es. cbn [fneg]. split; [exact Ex|].
      assert (Qe := eps_pos A eps eta HA). assert (Q1 := eps_small _ _ _ HA). assert (Q2 := eta_small _ _ _ HA).
      set (D := exp (- r0) + sumn J (fun k => if included k then exp (v k - r0) else 0)) in *. set (D' := rnd A (o + s)) in *.
      assert (PJ : 0 <= INR J) by apply pos_INR.
      (* The exact value. *)
      assert (T : expected_maximum J included v = ln D + r0).
      { unfold expected_maximum. set (G := 1 + sumn J (fun k => if included k then exp (v k) else 0)).
        assert (NS : 0 <= sumn J (fun k => if included k then exp (v k) else 0)) by (apply sumn_nonneg; intros k _; destruct (included k); [left; apply exp_pos|lra]).
        assert (ED : D = G * exp (- r0)).
        { unfold D, G. rewrite Rmult_plus_distr_r, Rmult_1_l. f_equal. rewrite <- sumn_scal_r. apply sumn_ext. intros k _. destruct (included k); [|ring]. rewrite <- exp_plus. reflexivity. }
        rewrite ED, ln_mult, ln_exp; [ring|unfold G; lra|apply exp_pos]. }
      rewrite T. set (l := ln D').
      assert (kap : 10 * (INR J + 1) * eps <= / 2) by lra. set (k := 10 * (INR J + 1) * eps) in *. assert (k0 : 0 <= k) by (unfold k; apply Rmult_le_pos; lra).
      assert (DDa := Rle_abs (D - D')). assert (DDb := Rle_abs (- (D - D'))). rewrite Rabs_Ropp in DDb.
      assert (G1 : ln D - l <= 2 * k).
      { unfold l. eapply Rle_trans; [apply ln_ratio; lra|]. apply Rmult_le_reg_r with D'; [lra|]. unfold Rdiv. rewrite Rmult_minus_distr_r, Rmult_assoc, Rinv_l by lra.
        assert (0 <= k * D') by (apply Rmult_le_pos; lra). lra. }
      assert (G2 : l - ln D <= 2 * k).
      { unfold l. eapply Rle_trans; [apply ln_ratio; lra|]. apply Rmult_le_reg_r with D; [lra|]. unfold Rdiv. rewrite Rmult_minus_distr_r, Rmult_assoc, Rinv_l by lra.
        assert (D' <= 2 * D). { assert (k * D' <= / 2 * D') by (apply Rmult_le_compat_r; lra). lra. }
        assert (k * D' <= k * (2 * D)) by (apply Rmult_le_compat_l; lra). lra. }
      assert (l0 : 0 <= l) by (unfold l; rewrite <- ln_1; destruct (proj1 D1') as [F|F]; [left; apply ln_increasing; lra|right; f_equal; exact F]).
      assert (lD : 0 <= ln D) by (rewrite <- ln_1; destruct D1 as [F|F]; [left; apply ln_increasing; lra|right; f_equal; exact F]).
      assert (E1 := HLA D' ltac:(lra)). fold l in E1. rewrite (Rabs_pos_eq l) in E1 by exact l0.
      assert (La := Rle_abs (Log A D' - l)). assert (Lb := Rle_abs (- (Log A D' - l))). rewrite Rabs_Ropp in Lb.
      assert (Lpos : 0 <= Log A D') by (rewrite <- (log_one _ HL); apply (log_mono _ HL); lra).
      assert (E2 := rnd_error _ _ _ HA (Log A D')). rewrite (Rabs_pos_eq (Log A D')) in E2 by exact Lpos. set (y := rnd A (Log A D')) in *.
      assert (y0 : 0 <= y) by (apply (rnd_nonneg A N HR), Lpos).
      assert (Ya := Rle_abs (y - Log A D')). assert (Yb := Rle_abs (- (y - Log A D'))). rewrite Rabs_Ropp in Yb.
      assert (E3 := rnd_error _ _ _ HA (y + r0)). rewrite <- Vx, (Rabs_pos_eq (y + r0)) in E3 by lra.
      assert (Xa := Rle_abs (x - (y + r0))). assert (Xb := Rle_abs (- (x - (y + r0)))). rewrite Rabs_Ropp in Xb.
      assert (el : eps * l <= / 8 * l) by (apply Rmult_le_compat_r; lra).
      assert (eL : eps * Log A D' <= eps * (l + / 8 * l)) by (apply Rmult_le_compat_l; lra).
      assert (ey : eps * (y + r0) <= eps * (2 * l + / 8 + r0)).
      { apply Rmult_le_compat_l; [exact Qe|]. assert (eps * Log A D' <= / 8 * Log A D') by (apply Rmult_le_compat_r; lra). lra. }
      assert (ll : eps * l <= eps * (ln D + 1)) by (apply Rmult_le_compat_l; [exact Qe|]; lra).
      assert (eD : 0 <= eps * ln D) by (apply Rmult_le_pos; lra). assert (er : 0 <= eps * r0) by (apply Rmult_le_pos; lra).
      apply Rabs_le. unfold k in *. split; lra.
    Qed.
  End Plain.

  (** With one nesting parameter. *)
  Section Nested.
    Variables (J H L B U K : nat) (v : nat -> R) (group : nat -> nat) (group_tree : nat -> tree) (groups_tree : tree) (rho : R) (several : bool).
    Hypothesis HG : nests J H group group_tree groups_tree.
    Hypothesis Hrho : 0 <= rho <= 1.
    Hypothesis HLJ : Log A (INR J) <= INR L.
    Hypothesis HBL : Exp A (INR L) <= INR B.
    Hypothesis HN : (S (H * B) <= N)%nat.
    Hypothesis HJ : (J <= N)%nat.
    Hypothesis HLN : (L <= N)%nat.
    Hypothesis HH : (0 < H)%nat.
    Hypothesis HK : Log A (INR (S (H * B))) <= INR K.
    Hypothesis HUK : (U + K <= N)%nat.
    Hypothesis Hv : forall k, (k < J)%nat -> v k <= INR U.
    Let u : nat -> flt := fun k => Num (v k).
    Let yes : nat -> bool := fun _ => true.
    Lemma same_min n : (0 < n)%nat -> min_rho (fun _ => rho) n = rho.
    Proof.
      induction n as [|n IH]; [lia|]. intros _. destruct n as [|n]; [reflexivity|]. change (min_rho (fun _ => rho) (S (S n))) with (Rmin (min_rho (fun _ => rho) (S n)) rho).
      rewrite IH by lia. apply Rmin_left. lra.
    Qed.
    Lemma nested_bounds : exists x, nested_numerator A J yes u H group_tree groups_tree (fun _ => rho) several = Num x /\ 0 <= x <= INR (U + K).
    Proof.
      assert (N1 : (1 <= N)%nat) by (clear - HN; lia). assert (Hu : forall k, (k < J)%nat -> exists r, u k = Num r) by (intros k _; exists (v k); reflexivity).
      destruct (reduction_spec J u Hu) as (r0 & E0 & H0 & HM & HT).
      assert (BR : r0 <= INR U). { destruct HT as [->|(k & Hk & Ek)]; [apply pos_INR|]. injection Ek as <-. apply Hv, Hk. }
      set (w := weighted_inclusive A J yes u group_tree (fun _ => rho)).
      assert (WU : forall h, (h < H)%nat -> exists x, upto A B (w h) x /\ forall s, inclusive A J yes u group_tree h = Num s -> 1 <= s -> 1 <= x).
      { intros h Hh. exact (weighted_upto A N HR HE HL J H L B u group group_tree groups_tree (fun _ => rho) Hu HG (fun _ _ => Hrho) HLJ HBL HN HJ HLN h Hh). }
      assert (HT' := adds_In groups_tree H (nests_groups _ _ _ _ _ HG)).
      assert (BN : (B <= N)%nat) by (clear - HN HH; nia).
      assert (Z : round A (Num 0) = Num 0).
      { destruct (round_upto A N HR 0 0 (Nat.le_0_l N) ltac:(cbn; lra)) as (Z & _). rewrite Z, (rnd_zero A N HR). reflexivity. }
      assert (W1 : forall h, surplus_weight A J u H (fun _ => rho) several h = Num 1).
      { intro h. unfold surplus_weight. destruct several; [|reflexivity]. rewrite (same_min H HH), E0. unfold rsub, fsub, rmul. cbn [fneg fadd].
        rewrite Rplus_opp_r, Z. cbn [fmul]. rewrite Rmult_0_r, Z. apply (rexp_zero A N HR HE), N1. }
      assert (E : rsum A groups_tree (fun h => rmul A (surplus_weight A J u H (fun _ => rho) several h) (w h)) = rsum A groups_tree w).
      { apply rsum_ext. intros h Hi. apply HT' in Hi. rewrite W1. destruct (WU h Hi) as (x & (Ex & Hx & Rx) & _). rewrite Ex. unfold rmul. cbn [fmul]. rewrite Rmult_1_l.
        destruct (round_upto A N HR B x BN Hx) as (F & _). rewrite F, Rx. reflexivity. }
      destruct (rsum_upto A N HR groups_tree w B) as (s & (Es & Hs & Rs) & Ls).
      { rewrite (adds_length groups_tree H (nests_groups _ _ _ _ _ HG)), Nat.mul_comm. clear - HN. lia. }
      { intros i Hi. apply HT' in Hi. destruct (WU i Hi) as (x & Hx & _). exists x. exact Hx. }
      rewrite (adds_length groups_tree H (nests_groups _ _ _ _ _ HG)), Nat.mul_comm in Hs.
      destruct (round_upto A N HR 1 (1 - rho) N1 ltac:(cbn [INR]; lra)) as (Ed & Bd & _). cbn [INR] in Bd. set (d := rnd A (1 - rho)) in *.
      assert (Bp : 0 <= r0 * d <= INR U).
      { split; [apply Rmult_le_pos; lra|]. assert (r0 * d <= r0 * 1) by (apply Rmult_le_compat_l; lra). lra. }
      assert (UN : (U <= N)%nat) by (clear - HUK; lia).
      assert (LS : nested_log_scale A J u H (fun _ => rho) = Num (- rnd A (r0 * d))).
      { unfold nested_log_scale. rewrite (same_min H HH), E0. unfold rsub, fsub. cbn [fneg fadd]. replace (1 + - rho) with (1 - rho) by ring. rewrite Ed.
        unfold rmul. cbn [fmul]. destruct (round_within A N HR U (- r0 * d) UN ltac:(lra)) as (F & _). rewrite F. f_equal.
        replace (- r0 * d) with (- (r0 * d)) by ring. apply (rounds_opp _ _ HR). }
      destruct (round_upto A N HR U (r0 * d) UN Bp) as (_ & Br & _). set (r := rnd A (r0 * d)) in *.
      destruct (rexp_nonpos A N HR HE (Num (- r)) N1) as (o & Eo & Ho & _); [right; exists (- r); split; [reflexivity|lra]|]. cbn [INR] in Ho.
      assert (One : 1 <= o + s).
      { destruct HT as [Z0|(k & Hk & Ek)].
        - assert (r = 0) by (unfold r; rewrite Z0, Rmult_0_l; apply (rnd_zero A N HR)). replace (- r) with 0 in Eo by lra. rewrite (rexp_zero A N HR HE N1) in Eo. injection Eo as <-. lra.
        - assert (Hg := nests_group _ _ _ _ _ HG k Hk). assert (T1 := exp_utility_top A N HR HE J u yes k r0 N1 eq_refl E0 Ek).
          destruct (inclusive_upto A N HR HE J H B u group group_tree groups_tree Hu HG HN HJ (group k) Hg) as (s1 & (Es1 & _) & Ls1).
          assert (Q := Ls1 k 1 Hk eq_refl T1). destruct (WU (group k) Hg) as (x & (Ex & _) & Gx). assert (Q1 := Gx s1 Es1 Q).
          assert (Q2 := Ls (group k) x (proj2 (HT' (group k)) Hg) Ex). lra. }
      destruct (numerator_bounds (S (H * B)) U K r o s HN ltac:(clear; lia) HUK Br HK Eo ltac:(lra) ltac:(lra) ltac:(rewrite S_INR; lra) One) as (x & Ex & Bx & Px & _).
      exists x. unfold nested_numerator. fold w. rewrite LS, E, Es. split; [exact Ex|lra].
    Qed.
  End Nested.

  (** Dividing by derivatives and integrating. *)
  Lemma agent_bounds numerators derivatives i n K : (n * K <= N)%nat -> between n (numerators i) -> (exists d, derivatives i = Num d /\ 0 < d /\ 1 <= INR K * d) ->
    between (n * K) (agent_surplus A numerators derivatives i).
  Proof.
    intros HN (x & Ex & Bx) (d & Ed & Pd & Hd). unfold agent_surplus, rdiv. rewrite Ex, Ed. cbn [fdiv]. destruct (Req_EM_T d 0); [lra|].
    destruct (round_upto A N HR (n * K) (x / d) HN) as (E & B & _); [|exists (rnd A (x / d)); auto].
    assert (Pi := Rinv_0_lt_compat d Pd). split; [apply Rmult_le_pos; lra|]. rewrite mult_INR. unfold Rdiv. apply Rmult_le_compat; [lra|lra|lra|].
    apply Rmult_le_reg_r with d; [exact Pd|]. rewrite Rinv_l by lra. lra.
  Qed.
  Lemma market_bounds agents I numerators derivatives weights n K W : adds_up agents I -> (n * K * W * I <= N)%nat -> (n * K <= N)%nat -> (n * K * W <= N)%nat ->
    (forall i, (i < I)%nat -> between n (numerators i)) -> (forall i, (i < I)%nat -> exists d, derivatives i = Num d /\ 0 < d /\ 1 <= INR K * d) ->
    (forall i, (i < I)%nat -> between W (weights i)) -> between (n * K * W * I) (market_surplus A agents numerators derivatives weights).
  Proof.
    intros Ha HN HN1 HN2 Hn Hd Hw. unfold market_surplus.
    destruct (rsum_upto A N HR agents (fun i => rmul A (agent_surplus A numerators derivatives i) (weights i)) (n * K * W)) as (s & (Es & Bs & _) & _).
    - rewrite (adds_length agents I Ha). exact HN.
    - intros i Hi. apply (adds_In agents I Ha) in Hi. destruct (agent_bounds numerators derivatives i n K HN1 (Hn i Hi) (Hd i Hi)) as (x & Ex & Bx).
      destruct (Hw i Hi) as (w & Ew & Bw). rewrite Ex, Ew. unfold rmul. cbn [fmul]. exists (rnd A (x * w)). apply (round_upto A N HR); [exact HN2|].
      split; [apply Rmult_le_pos; lra|]. rewrite (mult_INR (n * K) W). apply Rmult_le_compat; lra.
    - rewrite (adds_length agents I Ha) in Bs. exists s. auto.
  Qed.
End Logsum.
