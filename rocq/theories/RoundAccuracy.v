(** Choice probabilities in floating point arithmetic are close to exact ones. *)
From Coq Require Import Reals Lra Lia List Bool Arith Sorting.Permutation.
From Verif Require Import Base FltModel RoundModel RoundSpec RoundProofs DemandSpec.
Import ListNotations.
Local Open Scope R_scope.

Lemma exp_diff a b : a <= b -> 0 <= exp b - exp a <= exp b * (b - a).
Proof.
  intro H. assert (E := exp_ineq1_le (a - b)). assert (P := exp_pos b). replace a with (b + (a - b)) at 1 2 by ring. rewrite exp_plus.
  assert (Q : exp (a - b) <= 1). { rewrite <- exp_0. destruct H as [H|H]; [left; apply exp_increasing; lra|right; f_equal; lra]. }
  split.
  - assert (exp b * exp (a - b) <= exp b * 1) by (apply Rmult_le_compat_l; lra). lra.
  - assert (exp b * (1 + (a - b)) <= exp b * exp (a - b)) by (apply Rmult_le_compat_l; lra). lra.
Qed.
Lemma exp_nonpos a : a <= 0 -> 0 < exp a <= 1.
Proof. intro H. split; [apply exp_pos|]. rewrite <- exp_0. destruct H as [H| ->]; [left; apply exp_increasing, H|right; reflexivity]. Qed.
Lemma exp_times t : 0 <= t -> t * exp (- t) <= 1.
Proof.
  intro H. rewrite exp_Ropp. assert (P := exp_pos t). assert (E := exp_ineq1_le t). apply Rmult_le_reg_r with (exp t); [exact P|].
  rewrite Rmult_assoc, Rinv_l by lra. lra.
Qed.
Lemma exp_perturbed eps eta z z' : eps <= / 8 -> 0 <= eta <= eps -> z <= 0 -> z' <= 0 -> Rabs (z' - z) <= eps * Rabs z + eta -> Rabs (exp z' - exp z) <= 3 * eps.
Proof.
  intros H1 H2 Hz Hz' HD. set (t := - z). assert (Ht : 0 <= t) by (unfold t; lra). replace (Rabs z) with t in HD by (unfold t; rewrite Rabs_left1 by lra; reflexivity).
  destruct (Rle_dec z' z) as [L|L].
  - assert (X := exp_diff z' z L). rewrite Rabs_left1 in HD by lra. rewrite Rabs_left1 by lra. assert (T := exp_times t Ht). replace (- t) with z in T by (unfold t; ring).
    assert (E := exp_nonpos z Hz). assert (exp z * (z - z') <= exp z * (eps * t + eta)) by (apply Rmult_le_compat_l; lra).
    assert (eps * (t * exp z) <= eps * 1) by (apply Rmult_le_compat_l; lra). assert (exp z * eta <= 1 * eta) by (apply Rmult_le_compat_r; lra). nra.
  - assert (X := exp_diff z z' ltac:(lra)). rewrite Rabs_pos_eq in HD by lra. rewrite Rabs_pos_eq by lra. assert (E := exp_nonpos z' Hz').
    assert (Y : exp z' * (z' - z) <= exp z' * (eps * t + eta)) by (apply Rmult_le_compat_l; lra).
    set (y := (1 - eps) * t - eta). destruct (Rle_dec 0 y) as [P|P].
    + assert (K : exp z' <= exp (- y)).
      { assert (z' <= - y) by (unfold y, t in *; nra). destruct H as [H| ->]; [left; apply exp_increasing, H|right; reflexivity]. }
      assert (T := exp_times y P). assert (F := exp_nonpos (- y) ltac:(lra)). assert (G : t <= 8 / 7 * (y + eta)) by (unfold y; nra).
      assert (V : exp z' * (eps * t + eta) <= exp (- y) * (eps * t + eta)) by (apply Rmult_le_compat_r; [nra|exact K]).
      assert (V1 : exp (- y) * (eps * t) <= exp (- y) * (eps * (8 / 7 * (y + eta)))) by (apply Rmult_le_compat_l; [lra|apply Rmult_le_compat_l; lra]).
      assert (V2 : exp (- y) * eta <= 1 * eta) by (apply Rmult_le_compat_r; lra).
      assert (V3 : eps * (y * exp (- y)) <= eps * 1) by (apply Rmult_le_compat_l; lra).
      assert (V4 : eps * (exp (- y) * eta) <= eps * (1 * / 8)) by (apply Rmult_le_compat_l; [lra|]; apply Rmult_le_compat; lra).
      replace (exp (- y) * (eps * (8 / 7 * (y + eta)))) with (8 / 7 * (eps * (y * exp (- y))) + 8 / 7 * (eps * (exp (- y) * eta))) in V1 by ring. lra.
    + assert (t <= 8 / 7 * eta) by (unfold y in P; nra). assert (exp z' * (eps * t + eta) <= 1 * (eps * t + eta)) by (apply Rmult_le_compat_r; [nra|lra]).
      assert (eps * t <= / 8 * t) by (apply Rmult_le_compat_r; lra). lra.
Qed.

(** Logit probabilities are Lipschitz continuous in utilities. *)
Lemma logit_lipschitz J (v v' : nat -> R) d j : (j < J)%nat -> (forall k, (k < J)%nat -> Rabs (v k - v' k) <= d) ->
  Rabs (logit J all_goods true v j - logit J all_goods true v' j) <= 2 * d.
Proof.
  intros Hj Hd. assert (Pd : 0 <= d) by (eapply Rle_trans; [apply Rabs_pos|exact (Hd j Hj)]).
  assert (one : forall a b : nat -> R, (forall k, (k < J)%nat -> Rabs (a k - b k) <= d) ->
    logit J all_goods true a j - logit J all_goods true b j <= 2 * d).
  { clear v v' Hd. intros a b Hab. unfold logit, all_goods. cbn [indR]. set (Da := 1 + sumn J (fun k => exp (a k))). set (Db := 1 + sumn J (fun k => exp (b k))).
    assert (P : forall c : nat -> R, 0 <= sumn J (fun k => exp (c k))) by (intro c; apply sumn_nonneg; intros; left; apply exp_pos).
    assert (Da1 : 1 <= Da) by (unfold Da; assert (Q := P a); lra). assert (Db1 : 1 <= Db) by (unfold Db; assert (Q := P b); lra).
    assert (E0 : exp (- d) <= 1) by (apply exp_nonpos; lra). assert (E1 := exp_pos (- d)). assert (E2 := exp_ineq1_le (- (2 * d))).
    assert (G : forall y z, Rabs (y - z) <= d -> exp (- d) * exp y <= exp z /\ exp (- d) * exp z <= exp y).
    { intros y z H. apply Rabs_le_inv in H || idtac. assert (H1 := Rle_abs (y - z)). assert (H2 := Rle_abs (- (y - z))). rewrite Rabs_Ropp in H2.
      rewrite <- !exp_plus. assert (L1 : - d + y <= z) by lra. assert (L2 : - d + z <= y) by lra.
      split; [destruct L1 as [L1| ->]|destruct L2 as [L2| ->]]; try (left; apply exp_increasing; assumption); right; reflexivity. }
    (* Db is at most exp d times Da. *)
    assert (S : exp (- d) * Db <= Da).
    { unfold Da, Db. rewrite Rmult_plus_distr_l, Rmult_1_r, <- sumn_scal. apply Rplus_le_compat; [exact E0|]. apply sumn_le. intros k Hk. apply (G (a k) (b k)), Hab, Hk. }
    destruct (G (a j) (b j) (Hab j Hj)) as [Gj _]. assert (Ea := exp_pos (a j)). assert (Eb := exp_pos (b j)).
    assert (Q : exp (- d) * exp (- d) * (exp (a j) / Da) <= exp (b j) / Db).
    { apply Rmult_le_reg_r with (Da * Db); [apply Rmult_lt_0_compat; lra|].
      replace (exp (- d) * exp (- d) * (exp (a j) / Da) * (Da * Db)) with ((exp (- d) * exp (a j)) * (exp (- d) * Db)) by (field; lra).
      replace (exp (b j) / Db * (Da * Db)) with (exp (b j) * Da) by (field; lra).
      apply Rmult_le_compat; [apply Rmult_le_pos; lra|apply Rmult_le_pos; lra|exact Gj|exact S]. }
    assert (B : 0 <= exp (a j) / Da <= 1).
    { split; [apply Rmult_le_pos; [lra|left; apply Rinv_0_lt_compat; lra]|]. apply Rmult_le_reg_r with Da; [lra|]. unfold Rdiv. rewrite Rmult_assoc, Rinv_l by lra.
      assert (T := sumn_ge_term J (fun k => exp (a k)) j (fun k _ => Rlt_le _ _ (exp_pos _)) Hj). cbv beta in T. unfold Da. lra. }
    rewrite <- exp_plus in Q. replace (- d + - d) with (- (2 * d)) in Q by ring. set (q := exp (a j) / Da) in *.
    assert ((1 + - (2 * d)) * q <= exp (- (2 * d)) * q) by (apply Rmult_le_compat_r; lra). nra. }
  assert (H1 := one v v' Hd). assert (H2 := one v' v ltac:(intros k Hk; rewrite Rabs_minus_sym; exact (Hd k Hk))).
  apply Rabs_le. lra.
Qed.

Lemma sumn_abs_le n f g : (forall i, (i < n)%nat -> Rabs (f i) <= g i) -> Rabs (sumn n f) <= sumn n g.
Proof.
  induction n as [|n IH]; intro H; cbn [sumn].
  - rewrite Rabs_R0. lra.
  - eapply Rle_trans; [apply Rabs_triang|]. apply Rplus_le_compat; [apply IH; intros; apply H; lia|apply H; lia].
Qed.

Lemma probability_ext A J t included outside u u' safe j : adds_up t J -> (forall k, (k < J)%nat -> u k = u' k) -> (j < J)%nat ->
  probability A J t included outside u safe j = probability A J t included outside u' safe j.
Proof.
  intros Ht E Hj. assert (M : forall n, (n <= J)%nat -> maximum n u = maximum n u').
  { induction n as [|n IH]; intro Hn; [reflexivity|]. cbn [maximum]. rewrite IH, E by lia. reflexivity. }
  assert (Q : reduction J u = reduction J u') by (unfold reduction; rewrite M by lia; reflexivity).
  assert (X : forall k, (k < J)%nat -> exp_utility A J included u safe k = exp_utility A J included u' safe k) by (intros k Hk; unfold exp_utility; rewrite Q, E by exact Hk; reflexivity).
  unfold probability, outside_scale. rewrite Q, (X j Hj). f_equal. f_equal.
  assert (HI := adds_In t J Ht). revert HI. clear - X. intro HI. assert (K : forall i, In i (leaves t) -> (i < J)%nat) by (intros i Hi; apply HI, Hi). clear HI.
  induction t as [i|l IHl r IHr]; cbn [leaves rsum] in *; [apply X, K; left; reflexivity|]. rewrite IHl, IHr by (intros i Hi; apply K, in_or_app; auto). reflexivity.
Qed.

Section Accuracy.
  Variables (A : arithmetic) (N : nat) (eps eta : R).
  Hypothesis HR : rounds A N.
  Hypothesis HE : exponential A.
  Hypothesis HA : accurate A eps eta.

  Lemma eps_pos : 0 <= eps.
  Proof using HA. assert (Q := eta_small _ _ _ HA). lra. Qed.
  Lemma result_error x : Rabs (rnd A x - x) <= 2 * eps * Rabs (rnd A x) + 2 * eta.
  Proof using HA.
    assert (E := rnd_error _ _ _ HA x). assert (Q1 := eps_small _ _ _ HA). assert (Q2 := eta_small _ _ _ HA).
    assert (T : Rabs x <= Rabs (rnd A x) + Rabs (rnd A x - x)).
    { replace x with (rnd A x + - (rnd A x - x)) at 1 by ring. eapply Rle_trans; [apply Rabs_triang|]. rewrite Rabs_Ropp. lra. }
    assert (P := Rabs_pos (rnd A x)). assert (P' := Rabs_pos (rnd A x - x)). set (d := Rabs (rnd A x - x)) in *. set (r := Rabs (rnd A x)) in *.
    assert (eps * Rabs x <= eps * (r + d)) by (apply Rmult_le_compat_l; lra). assert (eps * d <= / 8 * d) by (apply Rmult_le_compat_r; lra).
    assert (0 <= eps * r) by (apply Rmult_le_pos; lra). lra.
  Qed.

  Fixpoint lsum (l : list nat) (x : nat -> R) : R := match l with [] => 0 | i :: l' => x i + lsum l' x end.
  Lemma lsum_app l l' x : lsum (l ++ l') x = lsum l x + lsum l' x.
  Proof using. induction l as [|i l IH]; cbn [app lsum]; [ring|rewrite IH; ring]. Qed.
  Lemma lsum_perm l l' x : Permutation l l' -> lsum l x = lsum l' x.
  Proof using. induction 1; cbn [lsum]; lra. Qed.
  Lemma lsum_seq n x : lsum (seq 0 n) x = sumn n x.
  Proof using. induction n as [|n IH]; [reflexivity|]. rewrite seq_S, lsum_app, IH. cbn [lsum sumn plus]. ring. Qed.
  Lemma leaves_pos t : 1 <= INR (List.length (leaves t)).
  Proof using.
    induction t as [i|l IHl r IHr]; cbn [leaves]; [cbn; lra|]. rewrite app_length, plus_INR. lra.
  Qed.

  Lemma rsum_error t x xr : (List.length (leaves t) <= N)%nat ->
    (forall i, In i (leaves t) -> x i = Num (xr i) /\ 0 <= xr i <= 1 /\ rnd A (xr i) = xr i) ->
    exists s, rsum A t x = Num s /\ 0 <= s <= INR (List.length (leaves t)) /\ rnd A s = s /\
      Rabs (s - lsum (leaves t) xr) <= (INR (List.length (leaves t)) - 1) * (2 * eps * s + 2 * eta).
  Proof using HR HA.
    assert (Qe := eps_pos). assert (Q2 := eta_small _ _ _ HA).
    induction t as [i|l IHl r IHr]; cbn [leaves rsum].
    - intros _ H. destruct (H i (or_introl eq_refl)) as (E & B & R0). exists (xr i). cbn [List.length INR lsum]. split; [exact E|]. split; [lra|]. split; [exact R0|].
      replace (xr i - (xr i + 0)) with 0 by ring. rewrite Rabs_R0. lra.
    - rewrite app_length. intros HN H.
      destruct IHl as (a & Ea & Ba & Ra & Da); [lia|intros i Hi; apply H, in_or_app; auto|].
      destruct IHr as (c & Ec & Bc & Rc & Dc); [lia|intros i Hi; apply H, in_or_app; auto|].
      assert (Pl := leaves_pos l). assert (Pr := leaves_pos r). set (n := List.length (leaves l)) in *. set (m := List.length (leaves r)) in *.
      unfold radd. rewrite Ea, Ec. cbn [fadd]. destruct (round_upto A N HR (n + m) (a + c) HN) as (E & B & I); [rewrite plus_INR; lra|].
      exists (rnd A (a + c)). split; [exact E|]. split; [exact B|]. split; [exact I|]. rewrite lsum_app, plus_INR.
      assert (La : a <= rnd A (a + c)) by (rewrite <- Ra at 1; apply (rounds_mono _ _ HR); lra).
      assert (Lc : c <= rnd A (a + c)) by (rewrite <- Rc at 1; apply (rounds_mono _ _ HR); lra).
      assert (D := result_error (a + c)). rewrite (Rabs_pos_eq (rnd A (a + c))) in D by apply B. set (s := rnd A (a + c)) in *.
      assert (Ma : (INR n - 1) * (2 * eps * a + 2 * eta) <= (INR n - 1) * (2 * eps * s + 2 * eta)) by (apply Rmult_le_compat_l; nra).
      assert (Mc : (INR m - 1) * (2 * eps * c + 2 * eta) <= (INR m - 1) * (2 * eps * s + 2 * eta)) by (apply Rmult_le_compat_l; nra).
      replace (s - (lsum (leaves l) xr + lsum (leaves r) xr)) with ((s - (a + c)) + ((a - lsum (leaves l) xr) + (c - lsum (leaves r) xr))) by ring.
      eapply Rle_trans; [apply Rabs_triang|]. assert (T := Rabs_triang (a - lsum (leaves l) xr) (c - lsum (leaves r) xr)). lra.
  Qed.

  (** Exponentials of numbers that have been rounded. *)
  Lemma rexp_error z z' : (1 <= N)%nat -> z <= 0 -> z' <= 0 -> Rabs (z' - z) <= eps * Rabs z + eta ->
    exists r, upto A 1 (rexp A (Num z')) r /\ Rabs (r - exp z) <= 6 * eps.
  Proof using HR HE HA.
    intros HN Hz Hz' HD. assert (Q1 := eps_small _ _ _ HA). assert (Q2 := eta_small _ _ _ HA). cbn [rexp].
    assert (B : 0 <= Exp A z' <= 1) by (split; [apply (exp_nonneg _ HE)|rewrite <- (exp_zero _ HE); apply (exp_mono _ HE), Hz']).
    exists (rnd A (Exp A z')). split; [apply (round_upto A N HR); [exact HN|cbn [INR]; exact B]|].
    assert (D1 := rnd_error _ _ _ HA (Exp A z')). rewrite (Rabs_pos_eq (Exp A z')) in D1 by lra. assert (D2 := exp_error _ _ _ HA z').
    assert (D3 := exp_perturbed eps eta z z' Q1 Q2 Hz Hz' HD). assert (F := exp_nonpos z' Hz').
    assert (eps * Exp A z' <= eps * 1) by (apply Rmult_le_compat_l; lra). assert (eps * exp z' <= eps * 1) by (apply Rmult_le_compat_l; lra).
    replace (rnd A (Exp A z') - exp z) with ((rnd A (Exp A z') - Exp A z') + ((Exp A z' - exp z') + (exp z' - exp z))) by ring.
    eapply Rle_trans; [apply Rabs_triang|]. assert (T := Rabs_triang (Exp A z' - exp z') (exp z' - exp z)). lra.
  Qed.

  Lemma lsum_error l f g d : (forall i, In i l -> Rabs (f i - g i) <= d) -> Rabs (lsum l f - lsum l g) <= INR (List.length l) * d.
  Proof using.
    induction l as [|i l IH]; intro H; [cbn; rewrite Rminus_0_r, Rabs_R0; lra|]. cbn [lsum]. change (List.length (i :: l)) with (S (List.length l)). rewrite S_INR.
    assert (I := IH (fun k Hk => H k (or_intror Hk))). assert (I0 := H i (or_introl eq_refl)).
    replace (f i + lsum l f - (g i + lsum l g)) with ((f i - g i) + (lsum l f - lsum l g)) by ring. eapply Rle_trans; [apply Rabs_triang|]. lra.
  Qed.

  Lemma probability_error J U t included outside (v : nat -> R) j : adds_up t J -> (S J <= N)%nat -> (2 * U <= N)%nat ->
    (forall k, (k < J)%nat -> - INR U <= v k <= INR U) ->
    (outside = true /\ (forall k, (k < J)%nat -> v k <= 0)) \/
    (exists k, (k < J)%nat /\ included k = true /\ 0 <= v k /\ forall i, (i < J)%nat -> v i <= v k) ->
    (j < J)%nat -> exists p, probability A J t included outside (fun k => Num (v k)) true j = Num p /\ 0 <= p <= 1 /\
      Rabs (p - logit J included outside v j) <= 10 * (INR J + 2) * eps.
  Proof using HR HE HA.
    intros Ht HN HU Hv HC Hj. assert (N1 : (1 <= N)%nat) by lia. assert (Qe := eps_pos). assert (Q1 := eps_small _ _ _ HA). assert (Q2 := eta_small _ _ _ HA).
    set (u := fun k => Num (v k)). assert (Hu : forall k, (k < J)%nat -> exists r, u k = Num r) by (intros k _; exists (v k); reflexivity).
    destruct (restricted_upto A N HR HE J t included outside u j Ht HN Hu) as (p & Ep & Bp & _).
    { destruct HC as [[HO Hle]|(k & Hk & Hin & Hm & Hle)].
      - left. split; [exact HO|]. intros k r Hk E. injection E as <-. exact (Hle k Hk).
      - right. exists k, (v k). repeat split; auto. intros i r Hi E. injection E as <-. exact (Hle i Hi). }
    { exact Hj. }
    exists p. split; [exact Ep|]. split; [exact Bp|].
    destruct (reduction_spec J u Hu) as (r0 & E0 & H0 & HM & HT).
    assert (BR : r0 <= INR U). { destruct HT as [->|(k & Hk & Ek)]; [apply pos_INR|]. injection Ek as <-. apply (Hv k Hk). }
    (* Terms. *)
    set (e := fun k => if included k then exp (v k - r0) else 0).
    assert (X : forall k, (k < J)%nat -> exists r, upto A 1 (exp_utility A J included u true k) r /\ Rabs (r - e k) <= 6 * eps).
    { intros k Hk. unfold exp_utility, e. destruct (included k).
      - rewrite E0. unfold u, rsub, fsub. cbn [fneg fadd]. assert (HZ := HM k (v k) Hk eq_refl). destruct (Hv k Hk) as [V1 V2].
        destruct (round_within A N HR (2 * U) (v k + - r0) HU) as (Er & _); [rewrite mult_INR; cbn [INR]; lra|]. rewrite Er.
        apply rexp_error; [exact N1|lra|apply (rnd_nonpos A N HR); lra|]. apply (rnd_error _ _ _ HA (v k - r0)).
      - exists 0. split; [split; [reflexivity|]; split; [cbn [INR]; lra|exact (rnd_zero A N HR)]|]. rewrite Rminus_0_r, Rabs_R0. lra. }
    (* The outside option. *)
    set (o := indR outside * exp (- r0)).
    assert (O : exists r, upto A 1 (outside_scale A J outside u true) r /\ Rabs (r - o) <= 6 * eps).
    { unfold outside_scale, o. destruct outside; cbn [indR].
      - rewrite E0. cbn [fneg]. rewrite Rmult_1_l. apply rexp_error; [exact N1|lra|lra|]. rewrite Rminus_diag_eq by reflexivity. rewrite Rabs_R0.
        assert (0 <= eps * Rabs (- r0)) by (apply Rmult_le_pos; [exact Qe|apply Rabs_pos]). lra.
      - exists 0. split; [split; [reflexivity|]; split; [cbn [INR]; lra|exact (rnd_zero A N HR)]|]. rewrite Rmult_0_l, Rminus_0_r, Rabs_R0. lra. }
    destruct O as (o' & (Eo & Bo & Ro) & Do). cbn [INR] in Bo.
    set (e' := fun k => match exp_utility A J included u true k with Num r => r | _ => 0 end).
    assert (Xe : forall k, (k < J)%nat -> exp_utility A J included u true k = Num (e' k) /\ 0 <= e' k <= 1 /\ rnd A (e' k) = e' k /\ Rabs (e' k - e k) <= 6 * eps).
    { intros k Hk. destruct (X k Hk) as (r & (Er & Br & Rr) & Dr). unfold e'. rewrite Er. auto. }
    assert (HI := adds_In t J Ht). assert (HLn := adds_length t J Ht).
    destruct (rsum_error t (exp_utility A J included u true) e') as (s & Es & Bs & Rs & Ds).
    { rewrite HLn. lia. }
    { intros i Hi. apply HI in Hi. destruct (Xe i Hi) as (? & ? & ? & _). auto. }
    assert (De : Rabs (lsum (leaves t) e' - lsum (leaves t) e) <= INR J * (6 * eps)).
    { rewrite <- HLn. apply lsum_error. intros i Hi. apply HI in Hi. destruct (Xe i Hi) as (_ & _ & _ & Q). exact Q. }
    rewrite HLn in Bs, Ds. rewrite (lsum_perm _ _ e Ht), lsum_seq in De.
    (* The denominator. *)
    set (D := o + sumn J e). set (D' := rnd A (o' + s)).
    destruct (round_upto A N HR (S J) (o' + s) HN ltac:(rewrite S_INR; lra)) as (Ed & Bd & _). fold D' in Ed, Bd.
    assert (Ls : s <= D') by (unfold D'; rewrite <- Rs at 1; apply (rounds_mono _ _ HR); lra).
    assert (e_nonneg : forall k, 0 <= e k) by (intro k; unfold e; destruct (included k); [left; apply exp_pos|lra]).
    assert (TOP : 1 <= D /\ 1 <= D').
    { assert (o_nonneg : 0 <= o) by (unfold o, indR; destruct outside; [rewrite Rmult_1_l; left; apply exp_pos|lra]).
      destruct HC as [[HO Hle]|(k & Hk & Hin & Hm & Hle)].
      - assert (Z : r0 = 0) by (destruct HT as [Z|(k & Hk & Ek)]; [exact Z|injection Ek as <-; specialize (Hle k Hk); lra]).
        assert (o1 : o = 1) by (unfold o; rewrite HO, Z, Ropp_0, exp_0; cbn; ring).
        destruct (outside_upto A N HR HE J u outside r0 N1 E0 H0) as (o2 & (Eo2 & _) & O2). rewrite Eo in Eo2. injection Eo2 as <-. specialize (O2 HO Z).
        split; [unfold D; assert (0 <= sumn J e) by (apply sumn_nonneg; auto); lra|]. unfold D'. rewrite <- (rounds_nat _ _ HR 1%nat N1 : rnd A 1 = 1). apply (rounds_mono _ _ HR). lra.
      - assert (Z : r0 = v k). { apply Rle_antisym; [|exact (HM k (v k) Hk eq_refl)]. destruct HT as [->|(k' & Hk' & Ek')]; [exact Hm|injection Ek' as <-; exact (Hle k' Hk')]. }
        assert (e1 : e k = 1) by (unfold e; rewrite Hin, Z, Rminus_diag_eq by reflexivity; apply exp_0).
        split; [unfold D; assert (G := sumn_ge_term J e k (fun i _ => e_nonneg i) Hk); lra|].
        assert (T1 := exp_utility_top A N HR HE J u included k r0 N1 Hin E0 ltac:(rewrite Z; reflexivity)).
        destruct (rsum_upto A N HR t (exp_utility A J included u true) 1) as (s1 & (Es1 & _) & G).
        { rewrite HLn. lia. }
        { intros i Hi. apply HI in Hi. destruct (X i Hi) as (r & Hr & _). exists r. exact Hr. }
        rewrite Es in Es1. injection Es1 as <-. specialize (G k 1 (proj2 (HI k) Hk) T1).
        unfold D'. rewrite <- (rounds_nat _ _ HR 1%nat N1 : rnd A 1 = 1). apply (rounds_mono _ _ HR). lra. }
    destruct TOP as [D1 D1'].
    assert (PJ : 0 <= INR J) by apply pos_INR. assert (PJ1 : 1 <= INR J) by (apply (le_INR 1); lia).
    assert (DD : Rabs (D - D') <= 10 * (INR J + 1) * eps * D').
    { assert (R1 := result_error (o' + s)). fold D' in R1. rewrite (Rabs_pos_eq D') in R1 by lra.
      assert (M : (INR J - 1) * (2 * eps * s + 2 * eta) <= (INR J - 1) * (2 * eps * D' + 2 * eta)).
      { apply Rmult_le_compat_l; [lra|]. assert (eps * s <= eps * D') by (apply Rmult_le_compat_l; lra). lra. }
      assert (M2 : 2 * eps * D' + 2 * eta <= 4 * eps * D') by (assert (eps * 1 <= eps * D') by (apply Rmult_le_compat_l; lra); lra).
      assert (M3 : INR J * (2 * eps * D' + 2 * eta) <= INR J * (4 * eps * D')) by (apply Rmult_le_compat_l; lra).
      assert (M4 : (INR J + 1) * (6 * eps) * 1 <= (INR J + 1) * (6 * eps) * D') by (apply Rmult_le_compat_l; [apply Rmult_le_pos; lra|lra]).
      replace (D - D') with (- (D' - (o' + s)) + (- (o' - o) + (- (s - lsum (leaves t) e') + - (lsum (leaves t) e' - sumn J e)))) by (unfold D; ring).
      eapply Rle_trans; [apply Rabs_triang|]. rewrite Rabs_Ropp.
      assert (T1 := Rabs_triang (- (o' - o)) (- (s - lsum (leaves t) e') + - (lsum (leaves t) e' - sumn J e))). rewrite Rabs_Ropp in T1.
      assert (T2 := Rabs_triang (- (s - lsum (leaves t) e')) (- (lsum (leaves t) e' - sumn J e))). rewrite !Rabs_Ropp in T2.
      assert (0 <= eps * D') by (apply Rmult_le_pos; lra). assert (0 <= INR J * (eps * D')) by (apply Rmult_le_pos; lra). lra. }
    destruct (Xe j Hj) as (Ej & Bj & Rj & Dj).
    assert (LG : logit J included outside v j = e j / D).
    { unfold logit, e, D. destruct (included j); [|unfold Rdiv; ring].
      assert (Ex : forall y, exp (y - r0) = exp y * exp (- r0)) by (intro y; rewrite <- exp_plus; reflexivity).
      assert (Sx : sumn J e = sumn J (fun k => if included k then exp (v k) else 0) * exp (- r0)).
      { rewrite <- sumn_scal_r. apply sumn_ext. intros k _. unfold e. destruct (included k); [apply Ex|ring]. }
      unfold D in D1. rewrite Ex. change (sumn J (fun k => if included k then exp (v k - r0) else 0)) with (sumn J e).
      rewrite Sx in *. unfold o in *. rewrite <- Rmult_plus_distr_r in *. set (G := indR outside + sumn J (fun k => if included k then exp (v k) else 0)) in *.
      assert (P := exp_pos (- r0)). assert (G <> 0) by (intro Z; rewrite Z in D1; lra). field. split; lra. }
    rewrite LG.
    assert (Bq : 0 <= e j / D <= 1).
    { assert (ej := e_nonneg j). assert (G := sumn_ge_term J e j (fun i _ => e_nonneg i) Hj). assert (o_nonneg : 0 <= o) by (unfold o, indR; destruct outside; [rewrite Rmult_1_l; left; apply exp_pos|lra]).
      split; [apply Rmult_le_pos; [exact ej|left; apply Rinv_0_lt_compat; lra]|]. apply Rmult_le_reg_r with D; [lra|]. unfold Rdiv. rewrite Rmult_assoc, Rinv_l by lra. unfold D. lra. }
    assert (Bq' : 0 <= e' j / D' <= 1).
    { destruct (rsum_upto A N HR t (exp_utility A J included u true) 1) as (s1 & (Es1 & _) & G).
      { rewrite HLn. lia. }
      { intros i Hi. apply HI in Hi. destruct (X i Hi) as (r & Hr & _). exists r. exact Hr. }
      rewrite Es in Es1. injection Es1 as <-. specialize (G j (e' j) (proj2 (HI j) Hj) Ej).
      split; [apply Rmult_le_pos; [lra|left; apply Rinv_0_lt_compat; lra]|]. apply Rmult_le_reg_r with D'; [lra|]. unfold Rdiv. rewrite Rmult_assoc, Rinv_l by lra. lra. }
    assert (PP : p = rnd A (e' j / D')).
    { unfold probability in Ep. rewrite Eo, Es, Ej in Ep. unfold radd in Ep. cbn [fadd] in Ep. rewrite Ed in Ep. unfold rdiv in Ep. cbn [fdiv] in Ep.
      destruct (Req_EM_T D' 0); [lra|]. destruct (round_upto A N HR 1 (e' j / D') N1 ltac:(cbn [INR]; lra)) as (E & _). rewrite E in Ep. injection Ep as <-. reflexivity. }
    assert (R1 := rnd_error _ _ _ HA (e' j / D')). rewrite <- PP, (Rabs_pos_eq (e' j / D')) in R1 by lra.
    assert (R2 : eps * (e' j / D') <= eps * 1) by (apply Rmult_le_compat_l; lra).
    assert (R3 : Rabs (e' j / D' - e j / D) <= 6 * eps + 10 * (INR J + 1) * eps).
    { replace (e' j / D' - e j / D) with ((e' j - e j) * / D' + (e j / D) * ((D - D') * / D')) by (field; lra).
      assert (I : 0 < / D' <= 1) by (split; [apply Rinv_0_lt_compat; lra|rewrite <- Rinv_1; apply Rinv_le_contravar; lra]).
      eapply Rle_trans; [apply Rabs_triang|]. rewrite !Rabs_mult, (Rabs_pos_eq (/ D')), (Rabs_pos_eq (e j / D)) by lra. apply Rplus_le_compat.
      - assert (Rabs (e' j - e j) * / D' <= (6 * eps) * 1) by (apply Rmult_le_compat; [apply Rabs_pos|lra|exact Dj|lra]). lra.
      - assert (Q : Rabs (D - D') * / D' <= 10 * (INR J + 1) * eps).
        { apply Rmult_le_reg_r with D'; [lra|]. rewrite Rmult_assoc, Rinv_l by lra. lra. }
        assert (0 <= Rabs (D - D') * / D') by (apply Rmult_le_pos; [apply Rabs_pos|lra]).
        assert (e j / D * (Rabs (D - D') * / D') <= 1 * (Rabs (D - D') * / D')) by (apply Rmult_le_compat_r; lra). lra. }
    replace (p - e j / D) with ((p - e' j / D') + (e' j / D' - e j / D)) by ring.
    eapply Rle_trans; [apply Rabs_triang|]. assert (0 <= INR J * eps) by (apply Rmult_le_pos; lra). lra.
  Qed.

  (** Market shares, relative to exact ones at the same mean utilities. *)
  Lemma share_error J I X M t agents (x w : nat -> R) (m : nat -> nat -> R) j : adds_up t J -> adds_up agents I -> (S J <= N)%nat -> (I <= N)%nat -> (2 * (X + M) <= N)%nat ->
    (forall k, (k < J)%nat -> - INR X <= x k <= INR X) -> (forall i k, (i < I)%nat -> (k < J)%nat -> - INR M <= m i k <= INR M) ->
    (forall i, (i < I)%nat -> 0 <= w i <= 1) -> (j < J)%nat ->
    exists s, market_share A agents (fun i => Num (w i)) (choice A J t true (fun i k => Num (m i k)) (fun k => Num (x k))) j = Num s /\
      Rabs (s - sumn I (fun i => w i * logit J all_goods true (fun k => x k + m i k) j)) <=
        (sumn I w * (10 * (INR J + 2) + 2 * INR (X + M) + 3) + 5 * INR I * Rmax 1 s) * eps.
  Proof using HR HE HA.
    intros Ht HT HN HI HU Hx Hm Hw Hj. assert (N1 : (1 <= N)%nat) by lia. assert (Qe := eps_pos). assert (Q1 := eps_small _ _ _ HA). assert (Q2 := eta_small _ _ _ HA).
    set (ch := choice A J t true (fun i k => Num (m i k)) (fun k => Num (x k))). set (ex := fun i => logit J all_goods true (fun k => x k + m i k) j).
    set (d := (10 * (INR J + 2) + 2 * INR (X + M) + 2) * eps).
    assert (PX := pos_INR (X + M)).
    assert (C : forall i, (i < I)%nat -> exists p, ch i j = Num p /\ 0 <= p <= 1 /\ Rabs (p - ex i) <= d).
    { intros i Hi. set (v := fun k => rnd A (x k + m i k)).
      assert (B : forall k, (k < J)%nat -> - INR (X + M) <= x k + m i k <= INR (X + M)) by (intros k Hk; destruct (Hx k Hk), (Hm i k Hi Hk); rewrite plus_INR; lra).
      assert (Bv : forall k, (k < J)%nat -> - INR (X + M) <= v k <= INR (X + M)) by (intros k Hk; apply (rnd_within A N HR); [lia|exact (B k Hk)]).
      assert (E : ch i j = probability A J t (fun _ => true) true (fun k => Num (v k)) true j).
      { unfold ch, choice. apply probability_ext; [exact Ht| |exact Hj]. intros k Hk. unfold utility, radd. cbn [fadd].
        destruct (round_within A N HR (X + M) (x k + m i k) ltac:(lia) (B k Hk)) as (E & _). exact E. }
      assert (G : (forall k, (k < J)%nat -> v k <= 0) \/ exists k, (k < J)%nat /\ 0 <= v k /\ forall i0, (i0 < J)%nat -> v i0 <= v k).
      { destruct (reduction_spec J (fun k => Num (v k)) ltac:(intros k _; exists (v k); reflexivity)) as (r0 & _ & H0 & HM & [->|(k & Hk & Ek)]).
        - left. intros k Hk. exact (HM k (v k) Hk eq_refl).
        - right. injection Ek as Ek. exists k. rewrite Ek. split; [exact Hk|]. split; [exact H0|]. intros i0 Hi0. exact (HM i0 (v i0) Hi0 eq_refl). }
      destruct (probability_error J (X + M) t (fun _ => true) true v j Ht HN HU Bv) as (p & Ep & Bp & Dp).
      { destruct G as [G|(k & Hk & G1 & G2)]; [left; split; [reflexivity|exact G]|right; exists k; auto]. }
      { exact Hj. }
      exists p. split; [rewrite E; exact Ep|]. split; [exact Bp|].
      assert (L := logit_lipschitz J v (fun k => x k + m i k) (eps * INR (X + M) + eta) j Hj).
      assert (LL : Rabs (logit J all_goods true v j - ex i) <= 2 * (eps * INR (X + M) + eta)).
      { apply L. intros k Hk. eapply Rle_trans; [apply (rnd_error _ _ _ HA)|]. apply Rplus_le_compat_r, Rmult_le_compat_l; [exact Qe|]. apply Rabs_le, (B k Hk). }
      replace (p - ex i) with ((p - logit J all_goods true v j) + (logit J all_goods true v j - ex i)) by ring. eapply Rle_trans; [apply Rabs_triang|].
      change (logit J (fun _ => true) true v j) with (logit J all_goods true v j) in Dp. unfold d. lra. }
    set (p := fun i => match ch i j with Num r => r | _ => 0 end).
    assert (Cp : forall i, (i < I)%nat -> ch i j = Num (p i) /\ 0 <= p i <= 1 /\ Rabs (p i - ex i) <= d).
    { intros i Hi. destruct (C i Hi) as (r & Er & G). unfold p. rewrite Er. auto. }
    assert (HL := adds_length agents I HT). assert (HIn := adds_In agents I HT).
    destruct (rsum_error agents (fun i => rmul A (ch i j) (Num (w i))) (fun i => rnd A (p i * w i))) as (s & Es & Bs & Rs & Ds).
    { rewrite HL. exact HI. }
    { intros i Hi. apply HIn in Hi. destruct (Cp i Hi) as (Ei & Bi & _). destruct (Hw i Hi). rewrite Ei. unfold rmul. cbn [fmul].
      assert (BB : 0 <= p i * w i <= INR 1). { split; [apply Rmult_le_pos; lra|]. assert (p i * w i <= 1 * 1) by (apply Rmult_le_compat; lra). cbn [INR]. lra. }
      destruct (round_upto A N HR 1 _ N1 BB) as (E & B & R0). cbn [INR] in B. auto. }
    exists s. split; [exact Es|]. rewrite HL in Ds, Bs. rewrite (lsum_perm _ _ _ HT), lsum_seq in Ds.
    assert (De : Rabs (sumn I (fun i => rnd A (p i * w i)) - sumn I (fun i => w i * ex i)) <= sumn I (fun i => (eps + d) * w i + eta)).
    { rewrite <- sumn_minus. assert (BB : forall i, (i < I)%nat -> Rabs (rnd A (p i * w i) - w i * ex i) <= (eps + d) * w i + eta).
      { intros i Hi. destruct (Cp i Hi) as (_ & Bi & Di). destruct (Hw i Hi) as [W0 W1]. assert (E := rnd_error _ _ _ HA (p i * w i)).
        rewrite Rabs_mult, (Rabs_pos_eq (p i)), (Rabs_pos_eq (w i)) in E by lra.
        assert (p i * w i <= 1 * w i) by (apply Rmult_le_compat_r; lra). assert (eps * (p i * w i) <= eps * (1 * w i)) by (apply Rmult_le_compat_l; lra).
        assert (Rabs (p i * w i - w i * ex i) <= d * w i).
        { replace (p i * w i - w i * ex i) with ((p i - ex i) * w i) by ring. rewrite Rabs_mult, (Rabs_pos_eq (w i)) by lra. apply Rmult_le_compat_r; [exact W0|exact Di]. }
        replace (rnd A (p i * w i) - w i * ex i) with ((rnd A (p i * w i) - p i * w i) + (p i * w i - w i * ex i)) by ring.
        eapply Rle_trans; [apply Rabs_triang|]. lra. }
      exact (sumn_abs_le I _ _ BB). }
    rewrite sumn_plus, sumn_scal, sumn_const in De.
    assert (PI : 1 <= INR I) by (rewrite <- HL; apply leaves_pos). assert (Ms := Rmax_l 1 s). assert (Ms' := Rmax_r 1 s). set (mx := Rmax 1 s) in *.
    assert (K1 : (INR I - 1) * (2 * eps * s + 2 * eta) <= (INR I - 1) * (4 * eps * mx)).
    { apply Rmult_le_compat_l; [lra|]. assert (eps * s <= eps * mx) by (apply Rmult_le_compat_l; lra). assert (eps * 1 <= eps * mx) by (apply Rmult_le_compat_l; lra). lra. }
    assert (K2 : INR I * eta <= INR I * (eps * mx)).
    { apply Rmult_le_compat_l; [lra|]. assert (eps * 1 <= eps * mx) by (apply Rmult_le_compat_l; lra). lra. }
    change (sumn I (fun i => w i * logit J all_goods true (fun k => x k + m i k) j)) with (sumn I (fun i => w i * ex i)).
    replace (s - sumn I (fun i => w i * ex i)) with ((s - sumn I (fun i => rnd A (p i * w i))) + (sumn I (fun i => rnd A (p i * w i)) - sumn I (fun i => w i * ex i))) by ring.
    eapply Rle_trans; [apply Rabs_triang|]. unfold d in De. change (sumn I (fun k => w k)) with (sumn I w) in De. assert (0 <= eps * mx) by (apply Rmult_le_pos; lra). lra.
  Qed.
End Accuracy.
