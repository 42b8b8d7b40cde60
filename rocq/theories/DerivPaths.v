(** Derivatives of mean utilities and markups that match shares, without assuming that they exist. *)
From Coq Require Import Reals Lra Lia List Bool Arith FunctionalExtensionality.
From Verif Require Import Base DemandSpec DemandModel DemandProofs DemandShares DemandElim DemandDeriv ConvProofs
  SupplyModel SupplySpec SupplyProofs DerivModel DerivProofs DerivCurve DerivParam DerivMore DerivImplicit DerivCont.
Local Open Scope R_scope.

(* ---------- Linear equations ---------- *)

Lemma continuous_near f t eta : continuity_pt f t -> 0 < eta -> exists r, 0 < r /\ forall y, Rabs (y - t) < r -> Rabs (f y - f t) < eta.
Proof.
  intros C He. destruct (C eta He) as [r [Hr H]]. exists r. split; [exact Hr|]. intros y Hy.
  destruct (Req_dec y t) as [->|N]; [unfold Rminus; rewrite Rplus_opp_r, Rabs_R0; exact He|].
  apply H. split; [split; [exact I|auto]|exact Hy].
Qed.

Lemma derivable_continuous f t l : derivable_pt_lim f t l -> continuity_pt f t.
Proof. intro D. apply derivable_continuous_pt. exists l. exact D. Qed.

(** A product of something that vanishes and is differentiable with something that is only continuous. *)
Lemma dlim_vanishing f g t l : f t = 0 -> derivable_pt_lim f t l -> continuity_pt g t -> derivable_pt_lim (fun y => f y * g y) t (l * g t).
Proof.
  intros F0 D C eta He.
  set (K := Rabs l + 1). set (G := Rabs (g t) + 1).
  assert (HK : 0 < K) by (assert (X := Rabs_pos l); unfold K; lra). assert (HG : 0 < G) by (assert (X := Rabs_pos (g t)); unfold G; lra).
  destruct (D (Rmin 1 (eta / 2 / G))) as [r1 D1]; [apply Rmin_pos; [lra|apply Rdiv_lt_0_compat; lra]|].
  destruct (continuous_near g t (eta / 2 / K) C) as [r2 [Hr2 C2]]; [apply Rdiv_lt_0_compat; lra|].
  assert (Hr : 0 < Rmin r1 r2) by (apply Rmin_pos; [apply cond_pos|exact Hr2]).
  exists (mkposreal _ Hr). intros h Hh Hl. cbn in Hl. assert (L1 := Rmin_l r1 r2). assert (L2 := Rmin_r r1 r2).
  specialize (D1 h Hh ltac:(lra)). rewrite F0 in *. specialize (C2 (t + h) ltac:(replace (t + h - t) with h by ring; lra)).
  assert (M1 := Rmin_l 1 (eta / 2 / G)). assert (M2 := Rmin_r 1 (eta / 2 / G)).
  set (q := (f (t + h) - 0) / h) in *.
  replace ((f (t + h) * g (t + h) - 0 * g t) / h - l * g t) with (q * (g (t + h) - g t) + (q - l) * g t) by (unfold q; field; exact Hh).
  assert (Hq : Rabs q <= K).
  { replace q with ((q - l) + l) by ring. assert (T := Rabs_triang (q - l) l). unfold K. lra. }
  eapply Rle_lt_trans; [apply Rabs_triang|]. rewrite !Rabs_mult.
  assert (B1 : Rabs q * Rabs (g (t + h) - g t) < eta / 2).
  { apply Rle_lt_trans with (K * Rabs (g (t + h) - g t)); [apply Rmult_le_compat_r; [apply Rabs_pos|exact Hq]|].
    replace (eta / 2) with (K * (eta / 2 / K)) by (field; lra). apply Rmult_lt_compat_l; assumption. }
  assert (B2 : Rabs (q - l) * Rabs (g t) <= eta / 2).
  { replace (eta / 2) with ((eta / 2 / G) * G) by (field; lra). apply Rmult_le_compat; try apply Rabs_pos; [lra|unfold G; lra]. }
  lra.
Qed.

Section Linear.
  Variables (J : nat) (D : R -> nat -> nat -> R) (dD inv : nat -> nat -> R) (eta : R -> nat -> R) (s : nat -> R) (t e : R).
  Hypothesis He : 0 < e.
  Hypothesis Hs : forall y j, Rabs (y - t) < e -> (j < J)%nat -> sumn J (fun k => D y j k * eta y k) = s j.
  Hypothesis HD : forall j k, (j < J)%nat -> (k < J)%nat -> derivable_pt_lim (fun y => D y j k) t (dD j k).
  Hypothesis Hinv : forall j k, (j < J)%nat -> (k < J)%nat -> sumn J (fun a => inv j a * D t a k) = if Nat.eqb j k then 1 else 0.
  Let E y j k := sumn J (fun a => inv j a * (D t a k - D y a k)).

  Let tt : Rabs (t - t) < e.
  Proof. unfold Rminus. rewrite Rplus_opp_r, Rabs_R0. exact He. Qed.

  Lemma inverse_applied j x : (j < J)%nat -> sumn J (fun a => inv j a * sumn J (fun k => D t a k * x k)) = x j.
  Proof.
    intro Hj. rewrite (sumn_ext J _ (fun a => sumn J (fun k => inv j a * D t a k * x k))) by (intros; rewrite <- sumn_scal; apply sumn_ext; intros; ring).
    rewrite sumn_swap. rewrite (sumn_ext J _ (fun k => if Nat.eqb k j then x k else 0)).
    - apply (sumn_delta J j x Hj).
    - intros k Hk. rewrite sumn_scal_r, (Hinv j k Hj Hk), Nat.eqb_sym. destruct (Nat.eqb k j); ring.
  Qed.

  Lemma eta_change y j : Rabs (y - t) < e -> (j < J)%nat -> eta y j = eta t j + sumn J (fun k => E y j k * eta y k).
  Proof.
    intros Hy Hj. unfold E.
    rewrite (sumn_ext J (fun k => sumn J (fun a => inv j a * (D t a k - D y a k)) * eta y k) (fun k => sumn J (fun a => inv j a * (D t a k - D y a k) * eta y k)))
      by (intros; rewrite <- sumn_scal_r; reflexivity).
    rewrite sumn_swap.
    rewrite (sumn_ext J _ (fun a => inv j a * sumn J (fun k => D t a k * eta y k) - inv j a * s a)).
    2:{ intros a Ha. rewrite <- (Hs y a Hy Ha), <- !sumn_scal, <- sumn_minus. apply sumn_ext. intros; ring. }
    rewrite sumn_minus, (inverse_applied j (eta y) Hj).
    rewrite (sumn_ext J (fun a => inv j a * s a) (fun a => inv j a * sumn J (fun k => D t a k * eta t k))) by (intros a Ha; rewrite (Hs t a tt Ha); reflexivity).
    rewrite (inverse_applied j (eta t) Hj). ring.
  Qed.

  Lemma E_derive j k : (j < J)%nat -> (k < J)%nat -> derivable_pt_lim (fun y => E y j k) t (- sumn J (fun a => inv j a * dD a k)).
  Proof.
    intros Hj Hk. unfold E.
    eapply dlim_eq; [|apply (dlim_sumn J (fun a y => inv j a * (D t a k - D y a k)) t (fun a => - (inv j a * dD a k)))].
    - apply sumn_opp.
    - intros a Ha. eapply dlim_eq; [|apply dlim_scal, dlim_minus; [apply dlim_const|apply HD; assumption]]. ring.
  Qed.
  Lemma E_zero j k : E t j k = 0.
  Proof. unfold E. rewrite (sumn_ext J _ (fun _ => 0)) by (intros; ring). apply sumn_zero. Qed.

  Lemma eta_continuous k : (k < J)%nat -> continuity_pt (fun y => eta y k) t.
  Proof.
    intros Hk eps Heps. set (S := sumn J (fun k => Rabs (eta t k))). assert (HS : 0 <= S) by (apply sumn_nonneg; intros; apply Rabs_pos).
    assert (HJ := pos_INR J).
    set (z := Rmin (/ (2 * (INR J + 1))) (eps / 4 / (S + 1))).
    assert (Hz : 0 < z) by (apply Rmin_pos; [apply Rinv_0_lt_compat; lra|apply Rdiv_lt_0_compat; lra]).
    destruct (finite_radius J (fun j r => forall y, Rabs (y - t) < r -> forall k, (k < J)%nat -> Rabs (E y j k) <= z)) as [r [Hr Q]].
    { intros j r r' Q L y Hy. apply Q. lra. }
    { intros j Hj. destruct (finite_radius J (fun k r => forall y, Rabs (y - t) < r -> Rabs (E y j k) <= z)) as [r [Hr Q]].
      - intros l r r' Q L y Hy. apply Q. lra.
      - intros l Hl. destruct (continuous_near (fun y => E y j l) t z (derivable_continuous _ _ _ (E_derive j l Hj Hl)) Hz) as [r [Hr Q]].
        exists r. split; [exact Hr|]. intros y Hy. specialize (Q y Hy). rewrite E_zero, Rminus_0_r in Q. lra.
      - exists r. split; [exact Hr|]. intros y Hy l Hl. apply Q; assumption. }
    exists (Rmin r e). split; [apply Rmin_pos; assumption|]. intros y [_ Hy]. unfold dist in *. cbn in *. unfold R_dist in *.
    assert (L1 := Rmin_l r e). assert (L2 := Rmin_r r e).
    destruct (argmax J (fun k => Rabs (eta y k - eta t k)) ltac:(lia)) as [j [Hj Mx]].
    apply Rle_lt_trans with (Rabs (eta y j - eta t j)); [apply Mx, Hk|]. set (M := Rabs (eta y j - eta t j)) in *.
    assert (HM : M <= z * S + z * (INR J * M)).
    { unfold M at 1. rewrite (eta_change y j ltac:(lra) Hj). replace (eta t j + sumn J (fun k0 => E y j k0 * eta y k0) - eta t j) with (sumn J (fun k0 => E y j k0 * eta y k0)) by ring.
      eapply Rle_trans; [apply (sum_small J (fun k => E y j k) (eta y) z)|].
      - intros l Hl. apply (Q j Hj y ltac:(lra) l Hl).
      - rewrite <- Rmult_plus_distr_l. apply Rmult_le_compat_l; [lra|]. unfold S. rewrite <- (sumn_const J M), <- sumn_plus.
        apply sumn_le. intros l Hl. specialize (Mx l Hl). cbv beta in Mx.
        replace (eta y l) with (eta t l + (eta y l - eta t l)) by ring. eapply Rle_trans; [apply Rabs_triang|]. lra. }
    assert (Z1 : z * (INR J + 1) <= / 2).
    { apply Rle_trans with (/ (2 * (INR J + 1)) * (INR J + 1)); [apply Rmult_le_compat_r; [lra|apply Rmin_l]|]. right. field. lra. }
    assert (Z2 : z * (S + 1) <= eps / 4).
    { apply Rle_trans with (eps / 4 / (S + 1) * (S + 1)); [apply Rmult_le_compat_r; [lra|apply Rmin_r]|]. right. field. lra. }
    assert (0 <= M) by apply Rabs_pos.
    assert (X1 : z * (INR J * M) <= / 2 * M).
    { replace (z * (INR J * M)) with ((z * INR J) * M) by ring. apply Rmult_le_compat_r; [assumption|]. nra. }
    assert (X2 : z * S <= eps / 4) by nra. lra.
  Qed.

  Lemma eta_differentiable j : (j < J)%nat -> derivable_pt_lim (fun y => eta y j) t (eta_by_theta J inv dD (eta t) j).
  Proof.
    intro Hj. apply dlim_ext_near with (fun y => eta t j + sumn J (fun k => E y j k * eta y k)) e; [exact He|intros y Hy; symmetry; apply eta_change; assumption|].
    unfold eta_by_theta.
    eapply dlim_eq; [|apply dlim_plus; [apply dlim_const|apply (dlim_sumn J (fun k y => E y j k * eta y k) t (fun k => - sumn J (fun a => inv j a * dD a k) * eta t k))]].
    - rewrite Rplus_0_l, <- sumn_opp. apply sumn_ext. intros; ring.
    - intros k Hk. apply (dlim_vanishing (fun y => E y j k) (fun y => eta y k)); [apply E_zero|apply E_derive; assumption|apply eta_continuous, Hk].
  Qed.
End Linear.

(* ---------- Paths of mean utilities ---------- *)

Lemma with_own_rho m : with_rho m (fun h => grho m h) = m.
Proof. destruct m. reflexivity. Qed.

Lemma mu_path_at T sigma pi p : mu_path T sigma pi p (np_value p sigma pi) = mu_of T sigma pi.
Proof. apply functional_extensionality; intro i. apply functional_extensionality; intro j. apply mu_same. Qed.

Lemma xi_by_theta_derivative solve m a T sigma pi p observed dpath :
  valid_market m -> valid_agents a -> in_range T p ->
  (mH m <> O -> forall h, (h < mH m)%nat -> 0 <= grho m h) ->
  exact_solver (mJ m) solve ->
  amu a = mu_of T sigma pi ->
  matching_path m (aI a, aw a) T sigma pi p observed dpath ->
  let t := np_value p sigma pi in
  let P := probs m (dpath t) (amu a) in
  let C := conds m (dpath t) (amu a) in
  let X := xi_by_theta solve m (aI a) (aw a) observed P C
             (fun i => fst (utility_tangent m (P i) (C i) (vx T sigma pi p i))) in
  snd X = false -> forall j, (j < mJ m)%nat -> derivable_pt_lim (fun y => dpath y j) t (fst X j).
Proof.
  intros V VA HR Hpos HS Ea HM t P C X HX j Hj. destruct HM as [e [He Hm]].
  assert (W := with_own_rho m).
  apply (family_differentiable m (fun h _ => grho m h) (mu_path T sigma pi p) (aI a) (aw a) t e (dpath t) He) with (observed := observed)
    (b := shares_by_theta (aI a) (aw a) (fun i => fst (utility_tangent m (P i) (C i) (vx T sigma pi p i)))); try exact Hj.
  - intros y Hy. rewrite W. exact V.
  - intros y Hy. exact Hpos.
  - exact VA.
  - intros h Hh. apply continuity_pt_const. intros x y. reflexivity.
  - intros i k Hk. eapply derivable_continuous. apply mu_derive, HR.
  - reflexivity.
  - intros y k Hy Hk. unfold family_shares. rewrite W. exact (Hm y k Hy Hk).
  - intros k Hk. unfold shares_by_theta. apply dlim_ext with (fun y => sumn (aI a) (fun i => probs m (dpath t) (mu_path T sigma pi p y) i k * aw a i)).
    { intro y. unfold family_shares. rewrite W. reflexivity. }
    apply (dlim_sumn (aI a) (fun i y => probs m (dpath t) (mu_path T sigma pi p y) i k * aw a i)). intros i Hi. apply dlim_scal_r.
    unfold P, C. rewrite Ea. apply (nonlinear_tangent_exact m T sigma pi p (dpath t) i k V HR Hk).
  - assert (S2 := HS _ _ HX). unfold t, family_jacobian. rewrite W, mu_path_at.
    assert (EO : forall k, (k < mJ m)%nat -> family_shares m (fun h _ => grho m h) (mu_path T sigma pi p) (aI a) (aw a) (np_value p sigma pi) (dpath (np_value p sigma pi)) k = observed k).
    { intros k Hk. unfold family_shares. rewrite W. apply (Hm (np_value p sigma pi) k); [|exact Hk]. unfold Rminus. rewrite Rplus_opp_r, Rabs_R0. exact He. }
    intros k Hk. specialize (S2 k Hk). unfold X, xi_by_theta. rewrite <- S2. apply sumn_ext. intros l Hl. f_equal.
    unfold shares_by_xi_jacobian. rewrite (EO k Hk). unfold P, C. rewrite Ea. reflexivity.
Qed.

Lemma total_tangent_derivative solve m a T sigma pi p observed dpath :
  valid_market m -> valid_agents a -> in_range T p ->
  (mH m <> O -> forall h, (h < mH m)%nat -> 0 <= grho m h) ->
  exact_solver (mJ m) solve ->
  amu a = mu_of T sigma pi ->
  matching_path m (aI a, aw a) T sigma pi p observed dpath ->
  let t := np_value p sigma pi in
  let P := probs m (dpath t) (amu a) in
  let C := conds m (dpath t) (amu a) in
  let tangent := fun i => utility_tangent m (P i) (C i) (vx T sigma pi p i) in
  let X := xi_by_theta solve m (aI a) (aw a) observed P C (fun i => fst (tangent i)) in
  snd X = false -> forall i j, (j < mJ m)%nat ->
  derivable_pt_lim (fun y => probs m (dpath y) (mu_path T sigma pi p y) i j) t
    (total_tangent m (P i) (C i) (fst (tangent i)) (fst X) j) /\
  (mH m <> O -> derivable_pt_lim (fun y => conds m (dpath y) (mu_path T sigma pi p y) i j) t
    (total_cond_tangent m (C i) (snd (tangent i)) (fst X) j)).
Proof.
  intros V VA HR Hpos HS Ea HM t P C tangent X HX.
  exact (total_tangent_exact solve m a T sigma pi p observed dpath (fst X) V VA HR Hpos HS Ea HM
    (xi_by_theta_derivative solve m a T sigma pi p observed dpath V VA HR Hpos HS Ea HM HX) HX).
Qed.

Lemma rho_near m flag t : valid_market m -> mH m <> O -> (forall h, flag h = true -> grho m h = t) -> 0 < t < 1 ->
  (rho_multi m = false -> forall h, (h < mH m)%nat -> flag h = true) -> (forall h, (h < mH m)%nat -> 0 <= grho m h) ->
  exists e, 0 < e /\ forall y, Rabs (y - t) < e -> valid_market (rho_market m flag y) /\ forall h, (h < mH m)%nat -> 0 <= rho_path m flag h y.
Proof.
  intros V HH Hf Ht Hall Hpos. destruct (rho_path_near m flag t V HH ltac:(lra) Hall) as [e [He H]].
  exists (Rmin e t). assert (L1 := Rmin_l e t). assert (L2 := Rmin_r e t). split; [apply Rmin_pos; lra|]. intros y Hy. split; [apply H; lra|].
  intros h Hh. unfold rho_path. destruct (flag h); [apply Rabs_def2 in Hy; lra|apply Hpos, Hh].
Qed.

Lemma xi_by_rho_derivative solve m a flag t observed dpath :
  valid_market m -> valid_agents a -> mH m <> O ->
  (forall h, flag h = true -> grho m h = t) -> 0 < t < 1 ->
  (rho_multi m = false -> forall h, (h < mH m)%nat -> flag h = true) ->
  (forall h, (h < mH m)%nat -> 0 <= grho m h) ->
  exact_solver (mJ m) solve ->
  matching_rho_path m a flag t observed dpath ->
  let P := probs m (dpath t) (amu a) in
  let C := conds m (dpath t) (amu a) in
  let tangent := fun i => rho_tangent m (P i) (C i) (dpath t) (amu a i) (fun h => indR (flag h)) in
  let X := xi_by_theta solve m (aI a) (aw a) observed P C (fun i => fst (tangent i)) in
  snd X = false -> forall j, (j < mJ m)%nat -> derivable_pt_lim (fun y => dpath y j) t (fst X j).
Proof.
  intros V VA HH Hf Ht Hall Hpos HS HM P C tangent X HX j Hj. destruct HM as [e0 [He0 Hm]].
  destruct (rho_near m flag t V HH Hf Ht Hall Hpos) as [e1 [He1 Hn]].
  assert (L1 := Rmin_l e0 e1). assert (L2 := Rmin_r e0 e1). assert (He : 0 < Rmin e0 e1) by (apply Rmin_pos; assumption).
  assert (Em := rho_market_at m flag t Hf).
  apply (family_differentiable m (rho_path m flag) (fun _ => amu a) (aI a) (aw a) t (Rmin e0 e1) (dpath t) He) with (observed := observed)
    (b := shares_by_theta (aI a) (aw a) (fun i => fst (tangent i))); try exact Hj.
  - intros y Hy. apply Hn. lra.
  - intros y Hy _ h Hh. apply Hn; [lra|exact Hh].
  - exact VA.
  - intros h Hh. eapply derivable_continuous. apply rho_path_derive.
  - intros i k Hk. apply continuity_pt_const. intros x y. reflexivity.
  - reflexivity.
  - intros y k Hy Hk. apply (Hm y k); [lra|exact Hk].
  - intros k Hk. unfold shares_by_theta. 
    apply (dlim_sumn (aI a) (fun i y => probs (rho_market m flag y) (dpath t) (amu a) i k * aw a i)). intros i Hi. apply dlim_scal_r.
    apply (rho_tangent_exact m (amu a) flag t (dpath t) i k V HH Hf ltac:(lra) Hall Hk).
  - assert (S2 := HS _ _ HX). unfold family_jacobian. change (with_rho m (fun h => rho_path m flag h t)) with (rho_market m flag t). rewrite Em.
    assert (EO : forall k, (k < mJ m)%nat -> family_shares m (rho_path m flag) (fun _ => amu a) (aI a) (aw a) t (dpath t) k = observed k).
    { intros k Hk. apply (Hm t k); [|exact Hk]. unfold Rminus. rewrite Rplus_opp_r, Rabs_R0. exact He0. }
    intros k Hk. specialize (S2 k Hk). unfold X, xi_by_theta. rewrite <- S2. apply sumn_ext. intros l Hl. f_equal.
    unfold shares_by_xi_jacobian. rewrite (EO k Hk). reflexivity.
Qed.

Lemma rho_total_derivative solve m a flag t observed dpath :
  valid_market m -> valid_agents a -> mH m <> O ->
  (forall h, flag h = true -> grho m h = t) -> 0 < t < 1 ->
  (rho_multi m = false -> forall h, (h < mH m)%nat -> flag h = true) ->
  (forall h, (h < mH m)%nat -> 0 <= grho m h) ->
  exact_solver (mJ m) solve ->
  matching_rho_path m a flag t observed dpath ->
  let P := probs m (dpath t) (amu a) in
  let C := conds m (dpath t) (amu a) in
  let tangent := fun i => rho_tangent m (P i) (C i) (dpath t) (amu a i) (fun h => indR (flag h)) in
  let X := xi_by_theta solve m (aI a) (aw a) observed P C (fun i => fst (tangent i)) in
  snd X = false ->
  (forall j, (j < mJ m)%nat -> derivable_pt_lim (fun y => dpath y j) t (fst X j)) /\
  (forall i j, (j < mJ m)%nat ->
     derivable_pt_lim (fun y => probs (rho_market m flag y) (dpath y) (amu a) i j) t
       (total_tangent m (P i) (C i) (fst (tangent i)) (fst X) j) /\
     derivable_pt_lim (fun y => conds (rho_market m flag y) (dpath y) (amu a) i j) t
       (total_cond_tangent m (C i) (snd (tangent i)) (fst X) j)).
Proof.
  intros V VA HH Hf Ht Hall Hpos HS HM P C tangent X HX.
  assert (D := xi_by_rho_derivative solve m a flag t observed dpath V VA HH Hf Ht Hall Hpos HS HM HX). split; [exact D|].
  exact (proj2 (xi_by_rho_exact solve m a flag t observed dpath (fst X) V VA HH Hf ltac:(lra) Hall Hpos HS HM D HX)).
Qed.

(* ---------- Markups ---------- *)

Lemma eta_by_theta_derivative M T sigma pi p :
  valid_market (fm M) -> in_range T p -> fK2 M = r_K2 T ->
  (forall j k, r_X2 T j k = if uses (fX2 M k) then ev (fX2 M k) j (var0 M j) else X2_0 M j k) ->
  forall dpath d, let t := np_value p sigma pi in let J := mJ (fm M) in
  (forall k, (k < J)%nat -> derivable_pt_lim (fun y => dpath y k) t (d k)) ->
  let P := probs (fm M) (dpath t) (mu_of T sigma pi) in
  let C := conds (fm M) (dpath t) (mu_of T sigma pi) in
  let U := utility_derivatives (tastes_at M T (dpath t) sigma pi) false (var0 M) in
  let tangent := fun i => utility_tangent (fm M) (P i) (C i) (vx T sigma pi p i) in
  let dP := fun i j => total_tangent (fm M) (P i) (C i) (fst (tangent i)) d j in
  let dC := fun i j => total_cond_tangent (fm M) (C i) (snd (tangent i)) d j in
  let dU := utility_derivatives_tangent (fm M) T sigma pi (X2_derivatives M) p in
  let at_ := fun y => tastes_at M T (dpath y) (sigma_with p sigma y) (pi_with p pi y) in
  forall O observed eta inv e,
  0 < e ->
  (forall y, Rabs (y - t) < e -> solves J (capital_delta (at_ y) O (var0 M)) observed (eta y)) ->
  (forall j k, (j < J)%nat -> (k < J)%nat ->
     sumn J (fun a => inv j a * capital_delta (at_ t) O (var0 M) a k) = if Nat.eqb j k then 1 else 0) ->
  forall j, (j < J)%nat -> derivable_pt_lim (fun y => eta y j) t
    (eta_by_theta J inv (capital_delta_tangent (fm M) (fI M) (fw M) P C U dP dC dU (fun _ => 0) O) (eta t) j).
Proof.
  intros V HR HK HX dpath d t J DD P C U tangent dP dC dU at_ O observed eta inv e He Hs Hinv j Hj.
  apply (eta_differentiable J (fun y => capital_delta (at_ y) O (var0 M)) _ inv eta observed t e He); try assumption.
  - intros y a Hy Ha. apply (Hs y Hy a Ha).
  - intros a b Ha Hb. exact (market_capital_delta M T sigma pi p V HR HK HX dpath d DD O a b Ha Hb).
Qed.

Lemma eta_by_rho_derivative M flag t :
  let m := fm M in
  valid_market m -> mH m <> O ->
  (forall h, flag h = true -> grho m h = t) -> t < 1 ->
  (rho_multi m = false -> forall h, (h < mH m)%nat -> flag h = true) ->
  forall dpath d,
  (forall k, (k < mJ m)%nat -> derivable_pt_lim (fun y => dpath y k) t (d k)) ->
  let mu := update_mu M (var0 M) in
  let P := probs m (dpath t) mu in
  let C := conds m (dpath t) mu in
  let tangent := fun i => rho_tangent m (P i) (C i) (dpath t) (mu i) (fun h => indR (flag h)) in
  let dP := fun i j => total_tangent m (P i) (C i) (fst (tangent i)) d j in
  let dC := fun i j => total_cond_tangent m (C i) (snd (tangent i)) d j in
  let at_ := fun y => with_market M (rho_market m flag y) (dpath y) in
  forall O observed eta inv e,
  0 < e ->
  (forall y, Rabs (y - t) < e -> solves (mJ m) (capital_delta (at_ y) O (var0 M)) observed (eta y)) ->
  (forall j k, (j < mJ m)%nat -> (k < mJ m)%nat ->
     sumn (mJ m) (fun a => inv j a * capital_delta (at_ t) O (var0 M) a k) = if Nat.eqb j k then 1 else 0) ->
  forall j, (j < mJ m)%nat -> derivable_pt_lim (fun y => eta y j) t
    (eta_by_theta (mJ m) inv
      (capital_delta_tangent m (fI M) (fw M) P C (utility_derivatives M false (var0 M)) dP dC (fun _ _ => 0)
       (fun h => indR (flag h)) O) (eta t) j).
Proof.
  intros m V HH Hf Ht Hall dpath d DD mu P C tangent dP dC at_ O observed eta inv e He Hs Hinv j Hj.
  apply (eta_differentiable (mJ m) (fun y => capital_delta (at_ y) O (var0 M)) _ inv eta observed t e He); try assumption.
  - intros y a Hy Ha. apply (Hs y Hy a Ha).
  - intros a b Ha Hb. exact (rho_market_capital_delta M flag t V HH Hf Ht Hall dpath d DD O a b Ha Hb).
Qed.
