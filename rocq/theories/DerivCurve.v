(** Derivatives with respect to mean utilities and parameters, and implicit derivatives. *)
From Coq Require Import Reals Lra Lia List Bool Arith FunctionalExtensionality.
From Verif Require Import Base DemandSpec DemandModel DemandProofs DemandShares DemandDeriv
  SupplyModel SupplySpec SupplyProofs DerivModel DerivProofs.
Local Open Scope R_scope.

Lemma dlim_ext_near f g x l d : 0 < d -> (forall y, Rabs (y - x) < d -> f y = g y) ->
  derivable_pt_lim f x l -> derivable_pt_lim g x l.
Proof.
  intros Hd E D eps He. destruct (D eps He) as [d' Hd'].
  assert (Hm : 0 < Rmin d d') by (apply Rmin_pos; [assumption|apply cond_pos]).
  exists (mkposreal _ Hm). intros h Hh Hh2. cbn in Hh2.
  rewrite <- !E.
  - apply Hd'; [assumption|]. eapply Rlt_le_trans; [exact Hh2|apply Rmin_r].
  - replace (x - x) with 0 by ring. rewrite Rabs_R0. assumption.
  - replace (x + h - x) with h by ring. eapply Rlt_le_trans; [exact Hh2|apply Rmin_l].
Qed.

(** ** Mean utilities *)
Section Xi.
  Variables (m : market) (V : valid_market m).

  Lemma xi_jacobian_is_jacobian I w observed P C j k :
    observed j = sumn I (fun i => P i j * w i) ->
    (mH m <> O -> (j < mJ m)%nat) ->
    shares_by_xi_jacobian m I w observed P C j k
    = jacobian_of m I w P C (fun _ _ => 1 / eps_scale m) j k.
  Proof.
    intros Eo Hj. unfold shares_by_xi_jacobian, jacobian_of, capital_lamda, capital_gamma.
    rewrite eps_div, Eo. assert (E0 := vm_eps _ V).
    rewrite (sumn_ext I (fun i => P i j * (1 / eps_scale m) * w i) (fun i => (1 / eps_scale m) * (P i j * w i)))
      by (intros; ring). rewrite sumn_scal.
    rewrite (sumn_ext I (fun i => P i j * (w i * (P i k * (1 / eps_scale m))))
                        (fun i => (1 / eps_scale m) * (P i j * (w i * P i k)))) by (intros; ring).
    rewrite sumn_scal.
    destruct (Nat.eqb_spec (mH m) 0) as [HH|HH].
    - destruct (Nat.eqb j k); field; lra.
    - rewrite (vm_eps_nest _ V HH).
      rewrite (sumn_ext I (fun i => C i j * (w i * (P i k * (1 / 1)))) (fun i => C i j * (w i * P i k)))
        by (intros; field).
      assert (Hr := rho_lt _ _ V HH (Hj HH)). destruct (Nat.eqb j k); field; lra.
  Qed.

  Lemma probabilities_by_xi_derive delta mu i l j : (j < mJ m)%nat -> (l < mJ m)%nat ->
    derivable_pt_lim (fun t => probs m (upd delta l t) mu i j) (delta l)
      (probabilities_by_xi m (probs m delta mu i) (conds m delta mu i) l j).
  Proof.
    intros Hj Hl. unfold probs.
    eapply dlim_eq; [|apply (prob_derive m true (fun t => upd delta l t) (fun _ => mu i) (delta l)
      (fun k => if Nat.eqb k l then 1 / eps_scale m else 0) j V Hj)].
    - cbv zeta.
      rewrite (prob_slope_ext m _ _ _ (fst (probabilities_linear m full_choice true delta (mu i)))
                 (cond_of (probabilities_linear m full_choice true delta (mu i))) j Hj).
      2:{ intros; apply probabilities_ext; try assumption. intros; unfold utility; rewrite upd_same; reflexivity. }
      2:{ intros; apply cond_ext; try assumption. intros; unfold utility; rewrite upd_same; reflexivity. }
      assert (E := prob_slope_single m true delta (mu i) (1 / eps_scale m) l j V Hj Hl). cbv zeta in E.
      rewrite E. unfold probabilities_by_xi. rewrite eps_div. rewrite conds_cond.
      set (P := fst (probabilities_linear m full_choice true delta (mu i))).
      set (C := cond_of (probabilities_linear m full_choice true delta (mu i))).
      assert (E0 := vm_eps _ V).
      destruct (Nat.eqb_spec (mH m) 0) as [HH|HH].
      + destruct (Nat.eqb_spec j l) as [->|Hne]; field; lra.
      + rewrite (vm_eps_nest _ V HH). assert (Hr := rho_lt _ _ V HH Hj). assert (Hrl := rho_lt _ _ V HH Hl).
        destruct (Nat.eqb_spec j l) as [->|Hne].
        * field; lra.
        * unfold membership. rewrite (Nat.eqb_sym (gid m l)).
          destruct (Nat.eqb_spec (gid m j) (gid m l)) as [Eg|Eg].
          -- assert (Er : rho m j = rho m l) by (unfold rho; rewrite Eg; reflexivity). rewrite Er. field; lra.
          -- field; lra.
    - intros k Hk. apply delta_curve; assumption.
  Qed.

  Lemma conditionals_by_xi_derive delta mu i l j : mH m <> O -> (j < mJ m)%nat -> (l < mJ m)%nat ->
    derivable_pt_lim (fun t => conds m (upd delta l t) mu i j) (delta l)
      (conditionals_by_xi m (conds m delta mu i) l j).
  Proof.
    intros HH Hj Hl.
    apply dlim_ext with (fun t => cond_of (probabilities_linear m full_choice true (upd delta l t) (mu i)) j);
      [intros; symmetry; apply conds_cond|].
    eapply dlim_eq; [|apply (cond_derive m true (fun t => upd delta l t) (fun _ => mu i) (delta l)
      (fun k => if Nat.eqb k l then 1 / eps_scale m else 0) j V HH Hj)].
    - rewrite (cond_slope_ext m _ _ (conds m delta mu i) j Hj).
      2:{ intros; rewrite conds_cond; apply cond_ext; try assumption.
          intros; unfold utility; rewrite upd_same; reflexivity. }
      rewrite cond_slope_single by assumption. unfold conditionals_by_xi. rewrite (vm_eps_nest _ V HH).
      assert (Hr := rho_lt _ _ V HH Hj). assert (Hrl := rho_lt _ _ V HH Hl).
      destruct (Nat.eqb_spec j l) as [->|Hne].
      + field; lra.
      + unfold membership. rewrite (Nat.eqb_sym (gid m l)).
        destruct (Nat.eqb_spec (gid m j) (gid m l)) as [Eg|Eg].
        * assert (Er : rho m j = rho m l) by (unfold rho; rewrite Eg; reflexivity). rewrite Er. field; lra.
        * field; lra.
    - intros k Hk. apply delta_curve; assumption.
  Qed.

  (** The Jacobian of the contraction. *)
  Lemma contraction_derive a shares x j k :
    valid_agents a -> eps_scale m = 1 -> (j < mJ m)%nat -> (k < mJ m)%nat ->
    derivable_pt_lim (fun t => contraction m a true (None, None) shares (upd x k t) j) (x k)
      (contraction_jacobian m (aI a) (aw a) (probs m x (amu a)) (conds m x (amu a)) j k).
  Proof.
    intros VA E1 Hj Hk. unfold contraction. cbn [clip_share fst].
    assert (DS := shares_by_delta m (aI a) (aw a) (amu a) x j k V Hj Hk).
    rewrite E1 in DS.
    assert (HS : 0 < sumn (aI a) (fun i => probs m (upd x k (x k)) (amu a) i j * aw a i))
      by (apply (market_shares_pos m a true (upd x k (x k)) j V VA Hj)).
    assert (HS0 : sumn (aI a) (fun i => probs m (upd x k (x k)) (amu a) i j * aw a i)
                  = sumn (aI a) (fun i => probs m x (amu a) i j * aw a i)).
    { apply sumn_ext; intros i Hi. f_equal. apply probabilities_ext; try assumption.
      intros; unfold utility; rewrite upd_same; reflexivity. }
    assert (DL := dlim_ln _ _ _ DS HS). cbv beta in DL. rewrite HS0 in DL, HS.
    set (s := sumn (aI a) (fun i => probs m x (amu a) i j * aw a i)) in *.
    assert (EJ : jacobian_of m (aI a) (aw a) (probs m x (amu a)) (conds m x (amu a)) (fun _ _ => 1 / 1) j k
      = shares_by_xi_jacobian m (aI a) (aw a) (fun _ => s) (probs m x (amu a)) (conds m x (amu a)) j k).
    { rewrite xi_jacobian_is_jacobian; [rewrite E1; reflexivity|reflexivity|intros; assumption]. }
    rewrite EJ in DL. clear EJ DS.
    unfold contraction_jacobian. fold s.
    unfold shares_by_xi_jacobian in DL. rewrite eps_div, E1 in DL.
    destruct (Nat.eqb_spec (mH m) 0) as [HH|HH].
    - eapply dlim_eq; [|apply (dlim_minus (fun t => upd x k t j + ln (shares j))); [apply dlim_plus; [apply upd_derive|apply dlim_const]|exact DL]].
      destruct (Nat.eqb j k); field; lra.
    - assert (Hr := rho_lt _ _ V HH Hj).
      eapply dlim_eq; [|apply dlim_plus; [apply upd_derive|apply (dlim_scal_r (1 - rho m j));
         apply dlim_minus; [apply dlim_const|exact DL]]].
      destruct (Nat.eqb j k); field; lra.
  Qed.
End Xi.

(** ** Parameters *)

(** Group sums of probabilities are group shares. *)
Lemma gsum_group m safe delta mu h :
  valid_market m -> mH m <> O -> (h < mH m)%nat ->
  gsum m (fst (probabilities_linear m full_choice safe delta mu)) h
  = group_share (mJ m) (mH m) (gid m) (grho m) all_goods true (utility m delta mu) h.
Proof.
  intros V HH Hh. unfold gsum. rewrite full_choice_with.
  destruct (probabilities_spec m safe true None None None delta mu V) as [_ B].
  destruct (B HH) as [B1 _]. rewrite included_all in B1.
  transitivity (sumn (mJ m) (fun j => if Nat.eqb (gid m j) h
      then within_group (mJ m) (gid m) (grho m) all_goods (utility m delta mu) j else 0)
      * group_share (mJ m) (mH m) (gid m) (grho m) all_goods true (utility m delta mu) h).
  - rewrite <- sumn_scal_r. apply sumn_ext; intros j Hj. rewrite (B1 j Hj). unfold nested.
    destruct (Nat.eqb_spec (gid m j) h) as [<-|]; ring.
  - rewrite within_group_total. unfold group_share, group_weight, Rdiv.
    destruct (existsb _ _) eqn:E; ring.
Qed.

Lemma prob_cond m safe delta mu j :
  valid_market m -> mH m <> O -> (j < mJ m)%nat ->
  let p := probabilities_linear m full_choice safe delta mu in
  fst p j = cond_of p j * gsum m (fst p) (gid m j).
Proof.
  intros V HH Hj p. unfold p.
  rewrite gsum_group, cond_spec by (try assumption; apply (vm_gid _ V HH); assumption).
  rewrite full_choice_with. destruct (probabilities_spec m safe true None None None delta mu V) as [_ B].
  destruct (B HH) as [B1 _]. rewrite included_all in B1. rewrite (B1 j Hj). reflexivity.
Qed.

Lemma gsum_member m x j : sumn (mJ m) (fun k => membership m j k * x k) = gsum m x (gid m j).
Proof.
  unfold gsum. apply sumn_ext; intros k _. unfold membership. rewrite Nat.eqb_sym.
  destruct (Nat.eqb (gid m k) (gid m j)); ring.
Qed.

Lemma gsum_total m x : valid_market m -> mH m <> O -> sumn (mH m) (gsum m x) = sumn (mJ m) x.
Proof.
  intros V HH. unfold gsum. symmetry. apply sumn_by_group. intros j Hj. apply (vm_gid _ V HH); assumption.
Qed.

(** What the code computes for parameters that move utilities by vx is the slope. *)
Lemma utility_tangent_slope m safe delta mu vx j :
  valid_market m -> (j < mJ m)%nat ->
  let p := probabilities_linear m full_choice safe delta mu in
  fst (utility_tangent m (fst p) (cond_of p) vx) j
  = prob_slope m (fst p) (cond_of p) (fun k => vx k / eps_scale m) j
  /\ (mH m <> O -> snd (utility_tangent m (fst p) (cond_of p) vx) j
      = cond_slope m (cond_of p) (fun k => vx k / eps_scale m) j).
Proof.
  intros V Hj p. unfold utility_tangent, prob_slope, cond_slope. assert (E0 := vm_eps _ V).
  destruct (Nat.eqb_spec (mH m) 0) as [HH|HH]; cbn [fst snd].
  - split; [|contradiction]. rewrite eps_div.
    rewrite (sumn_ext (mJ m) (fun k => fst p k * (vx k / eps_scale m)) (fun k => (fst p k * vx k) * / eps_scale m))
      by (intros; unfold Rdiv; ring). rewrite sumn_scal_r. field. lra.
  - rewrite (vm_eps_nest _ V HH). assert (Hr := rho_lt _ _ V HH Hj).
    rewrite !(gsum_member m (fun k => cond_of p k * (vx k / 1)) j).
    assert (EA : gsum m (fun k => cond_of p k * (vx k / 1)) (gid m j) = gsum m (fun k => cond_of p k * vx k) (gid m j))
      by (apply gsum_ext; intros; field).
    rewrite EA.
    assert (ET : sumn (mH m) (fun h => gsum m (fst p) h * gsum m (fun k => cond_of p k * vx k) h)
                 = sumn (mJ m) (fun k => fst p k * (vx k / 1))).
    { rewrite <- (gsum_total m (fun k => fst p k * (vx k / 1)) V HH). apply sumn_ext; intros h Hh.
      unfold gsum at 2. rewrite <- sumn_scal. unfold gsum at 2. apply sumn_ext; intros k Hk.
      destruct (Nat.eqb_spec (gid m k) h) as [<-|]; [|ring].
      assert (Ep := prob_cond m safe delta mu k V HH Hk). cbv zeta in Ep. fold p in Ep. rewrite Ep. field. }
    rewrite ET.
    assert (Ep := prob_cond m safe delta mu j V HH Hj). cbv zeta in Ep. fold p in Ep.
    set (A := gsum m (fun k => cond_of p k * vx k) (gid m j)). set (S := sumn (mJ m) _).
    set (G := gsum m (fst p) (gid m j)) in *. rewrite Ep. split; [field; lra|intros _; field; lra].
Qed.

(** Moving utilities and nesting parameters together. *)
Section Curve.
  Variables (m : market) (safe : bool) (delta mu : R -> nat -> R) (r : nat -> R -> R) (t : R).
  Variables (v r' : nat -> R).
  Hypothesis V : valid_market m.
  Hypothesis HH : mH m <> O.
  Hypothesis Hnear : exists d, 0 < d /\ forall y, Rabs (y - t) < d -> valid_market (with_rho m (fun h => r h y)).
  Hypothesis Ht : forall h, r h t = grho m h.
  Hypothesis DV : forall k, (k < mJ m)%nat -> derivable_pt_lim (fun y => delta y k + mu y k) t (v k).
  Hypothesis Dr : forall h, (h < mH m)%nat -> derivable_pt_lim (r h) t (r' h).
  Let p := probabilities_linear m full_choice safe (delta t) (mu t).
  Let P := fst p.
  Let C := cond_of p.
  Let m' (y : R) := with_rho m (fun h => r h y).
  Let Vc (k : nat) (y : R) := delta y k + mu y k.

  Lemma eps_one : eps_scale m = 1. Proof. exact (vm_eps_nest _ V HH). Qed.

  Lemma utility_one y k : utility m (delta y) (mu y) k = Vc k y.
  Proof. unfold utility, Vc. rewrite eps_one. field. Qed.
  Lemma utility_one' y k : utility (m' y) (delta y) (mu y) k = Vc k y.
  Proof. unfold utility, Vc. cbn. rewrite eps_one. field. Qed.

  Lemma r_at : (fun h => r h t) = grho m.
  Proof. apply functional_extensionality; exact Ht. Qed.

  Lemma V_at : (fun k => Vc k t) = utility m (delta t) (mu t).
  Proof. apply functional_extensionality; intros k. symmetry; apply utility_one. Qed.

  Lemma C_at j : (j < mJ m)%nat -> within_group (mJ m) (gid m) (grho m) all_goods (fun k => Vc k t) j = C j.
  Proof. intros Hj. unfold C, p. rewrite cond_spec by assumption. rewrite V_at. reflexivity. Qed.

  Lemma P_at j : (j < mJ m)%nat ->
    nested (mJ m) (mH m) (gid m) (grho m) all_goods true (fun k => Vc k t) j = P j.
  Proof.
    intros Hj. unfold P, p. rewrite full_choice_with.
    destruct (probabilities_spec m safe true None None None (delta t) (mu t) V) as [_ B].
    destruct (B HH) as [B1 _]. rewrite included_all in B1. rewrite (B1 j Hj), V_at. reflexivity.
  Qed.

  Lemma G_at h : (h < mH m)%nat ->
    group_share (mJ m) (mH m) (gid m) (grho m) all_goods true (fun k => Vc k t) h = gsum m P h.
  Proof. intros Hh. unfold P, p. rewrite gsum_group by assumption. rewrite V_at. reflexivity. Qed.

  (** The two parts of the slope of V / (1 - rho). *)
  Let scaled (k : nat) : R := (delta t k + mu t k) / (1 - rho m k).
  Let A (k : nat) : R := C k * scaled k / (1 - rho m k).

  Lemma dU_split k : (k < mJ m)%nat ->
    dU (gid m) Vc r t v r' k = v k / (1 - rho m k) + r' (gid m k) * (scaled k / (1 - rho m k)).
  Proof.
    intros Hk. unfold dU, scaled, Vc. rewrite Ht. fold (rho m k).
    assert (Hr := rho_lt _ _ V HH Hk). field. lra.
  Qed.

  Lemma dA_split h : (h < mH m)%nat ->
    dA (mJ m) (gid m) all_goods Vc r t v r' h
    = gsum m (fun k => C k * v k) h / (1 - grho m h) + r' h * gsum m A h.
  Proof.
    intros Hh. unfold dA, gsum. rewrite r_at. unfold Rdiv. rewrite <- sumn_scal_r, <- sumn_scal, <- sumn_plus.
    apply sumn_ext; intros k Hk. destruct (Nat.eqb_spec (gid m k) h) as [<-|]; [|ring].
    rewrite C_at, dU_split by assumption. unfold A, rho, Rdiv. ring.
  Qed.

  Lemma log_inclusive h : (exists k, (k < mJ m)%nat /\ gid m k = h) ->
    let red := Rmax (maxn (pred (mJ m)) scaled) 0 in
    ln (gsum m (fun j => exp (scaled j - red)) h) + red
    = ln (inclusive (mJ m) (gid m) (grho m) all_goods (fun k => Vc k t) h).
  Proof.
    intros [k0 [Hk0 E0]] red.
    assert (EI : inclusive (mJ m) (gid m) (grho m) all_goods (fun k => Vc k t) h
                 = gsum m (fun j => exp (scaled j - red)) h * exp red).
    { unfold gsum. rewrite <- sumn_scal_r. unfold inclusive. apply sumn_ext; intros k Hk.
      unfold all_goods. cbn [andb]. destruct (Nat.eqb_spec (gid m k) h) as [<-|]; [|ring].
      rewrite <- exp_plus. f_equal. unfold scaled, rho, Vc. ring. }
    assert (HG : 0 < gsum m (fun j => exp (scaled j - red)) h).
    { unfold gsum. apply sumn_pos.
      - intros k Hk. destruct (Nat.eqb _ _); [left; apply exp_pos|lra].
      - exists k0; split; [assumption|]. rewrite E0, Nat.eqb_refl. apply exp_pos. }
    rewrite EI, ln_mult by (try assumption; apply exp_pos). rewrite ln_exp. reflexivity.
  Qed.

  Let rt := rho_tangent m P C (delta t) (mu t) r'.

  (** marginal probability times slope of the log weight. *)
  Let Br (h : nat) : R :=
    gsum m P h * (gsum m A h * (1 - grho m h)
      - (ln (gsum m (fun j => exp (scaled j - Rmax (maxn (pred (mJ m)) scaled) 0)) h)
         + Rmax (maxn (pred (mJ m)) scaled) 0)).

  Lemma dB_split h : (h < mH m)%nat ->
    gsum m P h * dB (mJ m) (gid m) all_goods Vc r t v r' h
    = gsum m P h * gsum m (fun k => C k * v k) h + r' h * Br h.
  Proof.
    intros Hh. unfold dB. rewrite Ht, dA_split by assumption.
    assert (Hr := vm_rho _ V HH h Hh).
    destruct (existsb (fun k => Nat.eqb (gid m k) h) (seq 0 (mJ m))) eqn:E.
    - apply existsb_exists in E. destruct E as [k [Hk E]]. apply in_seq in Hk. apply Nat.eqb_eq in E.
      unfold Br. rewrite log_inclusive by (exists k; split; [lia|assumption]).
      rewrite r_at. field. lra.
    - assert (E0 : gsum m P h = 0).
      { unfold gsum. transitivity (sumn (mJ m) (fun _ => 0)); [|apply sumn_zero]. apply sumn_ext; intros k Hk.
        destruct (Nat.eqb (gid m k) h) eqn:Ek; [|reflexivity].
        exfalso. assert (existsb (fun k => Nat.eqb (gid m k) h) (seq 0 (mJ m)) = true).
        { apply existsb_exists. exists k; split; [apply in_seq; lia|assumption]. }
        congruence. }
      unfold Br. rewrite E0. ring.
  Qed.

  Lemma total_B_split :
    total_B (mJ m) (mH m) (gid m) all_goods true Vc r t v r'
    = sumn (mJ m) (fun k => P k * v k) + sumn (mH m) (fun h => r' h * Br h).
  Proof.
    unfold total_B. rewrite r_at.
    rewrite (sumn_ext (mH m) _ (fun h => gsum m P h * gsum m (fun k => C k * v k) h + r' h * Br h)).
    2:{ intros h Hh. rewrite G_at by assumption. apply dB_split; assumption. }
    rewrite sumn_plus. f_equal. rewrite <- (gsum_total m (fun k => P k * v k) V HH).
    apply sumn_ext; intros h Hh. unfold gsum at 2. rewrite <- sumn_scal. unfold gsum at 2.
    apply sumn_ext; intros k Hk. destruct (Nat.eqb_spec (gid m k) h) as [<-|]; [|ring].
    assert (Ep := prob_cond m safe (delta t) (mu t) k V HH Hk). cbv zeta in Ep. fold p in Ep. fold P C in Ep.
    rewrite Ep. ring.
  Qed.

  Lemma curve_cond j : (j < mJ m)%nat ->
    derivable_pt_lim (fun y => cond_of (probabilities_linear (m' y) full_choice safe (delta y) (mu y)) j) t
      (cond_slope m C v j + snd rt j).
  Proof.
    intros Hj. destruct Hnear as [d [Hd Hv]].
    apply dlim_ext_near with (fun y => within_group (mJ m) (gid m) (fun h => r h y) all_goods (fun k => Vc k y) j) d.
    - assumption.
    - intros y Hy. rewrite (cond_spec (m' y) safe (delta y) (mu y) j (Hv y Hy)) by assumption.
      assert (EV : (fun k => Vc k y) = utility (m' y) (delta y) (mu y))
        by (apply functional_extensionality; intros k; symmetry; apply utility_one').
      rewrite EV. reflexivity.
    - eapply dlim_eq; [|apply (dlim_within (mJ m) (mH m) (gid m) all_goods Vc r t v r'); try assumption].
      + assert (Hg := vm_gid _ V HH j Hj). rewrite r_at, C_at, dU_split, dA_split by assumption.
        unfold cond_slope, rt, rho_tangent. cbn [snd].
        rewrite (gsum_member m (fun k => C k * v k) j).
        assert (Hr := rho_lt _ _ V HH Hj).
        change (gsum m (fun j0 : nat => C j0 * ((delta t j0 + mu t j0) / (1 - rho m j0)) / (1 - rho m j0)) (gid m j))
          with (gsum m A (gid m j)).
        fold (rho m j). unfold scaled. field. lra.
      + intros k Hk. apply (vm_gid _ V HH); assumption.
      + intros h Hh. rewrite Ht. apply (vm_rho _ V HH); assumption.
  Qed.

  Lemma curve_prob j : (j < mJ m)%nat ->
    derivable_pt_lim (fun y => fst (probabilities_linear (m' y) full_choice safe (delta y) (mu y)) j) t
      (prob_slope m P C v j + fst rt j).
  Proof.
    intros Hj. destruct Hnear as [d [Hd Hv]].
    apply dlim_ext_near with
      (fun y => nested (mJ m) (mH m) (gid m) (fun h => r h y) all_goods true (fun k => Vc k y) j) d.
    - assumption.
    - intros y Hy. rewrite full_choice_with.
      destruct (probabilities_spec (m' y) safe true None None None (delta y) (mu y) (Hv y Hy)) as [_ B].
      destruct (B HH) as [B1 _]. rewrite included_all in B1. rewrite (B1 j Hj).
      assert (EV : (fun k => Vc k y) = utility (m' y) (delta y) (mu y))
        by (apply functional_extensionality; intros k; symmetry; apply utility_one').
      rewrite EV. reflexivity.
    - eapply dlim_eq; [|apply (dlim_nested (mJ m) (mH m) (gid m) all_goods true Vc r t v r'); try assumption].
      + assert (Hg := vm_gid _ V HH j Hj). rewrite r_at, P_at, dU_split, dA_split, total_B_split by assumption.
        assert (Ep := prob_cond m safe (delta t) (mu t) j V HH Hj). cbv zeta in Ep. fold p in Ep. fold P C in Ep.
        assert (EB := dB_split (gid m j) Hg).
        unfold prob_slope, rt, rho_tangent. cbn [fst].
        destruct (Nat.eqb_spec (mH m) 0) as [|_]; [contradiction|].
        rewrite (gsum_member m (fun k => C k * v k) j).
        assert (Hr := rho_lt _ _ V HH Hj).
        change (gsum m (fun j0 : nat => C j0 * ((delta t j0 + mu t j0) / (1 - rho m j0)) / (1 - rho m j0)))
          with (gsum m A).
        change (fun j0 : nat => (delta t j0 + mu t j0) / (1 - rho m j0)) with scaled.
        change (fun j0 : nat => exp (scaled j0 - Rmax (maxn (pred (mJ m)) scaled) 0)) with
               (fun j0 : nat => exp (scaled j0 - Rmax (maxn (pred (mJ m)) scaled) 0)).
        set (TB := sumn (mH m) (fun h => r' h * Br h)).
        replace (sumn (mH m) _) with TB by reflexivity.
        set (S := sumn (mJ m) (fun k => P k * v k)).
        change (gsum m P (gid m j) * (gsum m A (gid m j) * (1 - grho m (gid m j))
          - (ln (gsum m (fun j0 : nat => exp (scaled j0 - Rmax (maxn (pred (mJ m)) scaled) 0)) (gid m j))
             + Rmax (maxn (pred (mJ m)) scaled) 0))) with (Br (gid m j)).
        set (dBg := dB _ _ _ _ _ _ _ _ _) in *.
        set (Cv := gsum m (fun k => C k * v k) (gid m j)) in *.
        set (G := gsum m P (gid m j)) in *. set (B := Br (gid m j)) in *. set (As := gsum m A (gid m j)) in *.
        change (grho m (gid m j)) with (rho m j).
        change ((delta t j + mu t j) / (1 - rho m j)) with (scaled j).
        set (sj := scaled j) in *.
        rewrite Ep.
        transitivity (C j * (G * (v j / (1 - rho m j) + r' (gid m j) * (sj / (1 - rho m j))
            - (Cv / (1 - rho m j) + r' (gid m j) * As)) + G * dBg - G * (S + TB))); [ring|].
        rewrite EB.
        change B with (G * (As * (1 - rho m j)
          - (ln (gsum m (fun j0 : nat => exp ((delta t j0 + mu t j0) / (1 - rho m j0) - Rmax (maxn (pred (mJ m)) scaled) 0)) (gid m j))
             + Rmax (maxn (pred (mJ m)) scaled) 0))).
        field. lra.
      + intros k Hk. apply (vm_gid _ V HH); assumption.
      + intros h Hh. rewrite Ht. apply (vm_rho _ V HH); assumption.
      + apply weights_pos.
  Qed.
End Curve.
