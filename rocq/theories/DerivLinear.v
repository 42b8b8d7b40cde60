(** Derivatives with respect to linear parameters that are not concentrated out. *)
From Coq Require Import Reals Lra Lia List Bool Arith FunctionalExtensionality.
From Verif Require Import Base DemandSpec DemandModel DemandProofs DemandShares DemandElim DemandDeriv ConvProofs
  SupplyModel SupplySpec SupplyProofs DerivModel DerivProofs DerivCurve DerivParam DerivMore DerivImplicit DerivCont DerivPaths.
Local Open Scope R_scope.

(** Moving mean utilities against a characteristic undoes moving utilities along it. *)
Lemma offset_tangent m delta mu X i j : valid_market m -> (j < mJ m)%nat ->
  total_tangent m (probs m delta mu i) (conds m delta mu i)
    (fst (utility_tangent m (probs m delta mu i) (conds m delta mu i) X)) (fun k => - X k) j = 0.
Proof.
  intros V Hj.
  assert (E1 := utility_tangent_slope m true delta (mu i) X j V Hj). cbv zeta in E1. destruct E1 as [E1 _].
  assert (E2 := slope_by_xi m true delta (mu i) (fun k => - X k) j V Hj). cbv zeta in E2.
  unfold total_tangent. unfold probs, conds in *.
  fold (cond_of (probabilities_linear m full_choice true delta (mu i))) in *.
  change (fun j0 : nat => cond_of (probabilities_linear m full_choice true delta (mu i)) j0)
    with (cond_of (probabilities_linear m full_choice true delta (mu i))) in *.
  change (fun j0 : nat => fst (probabilities_linear m full_choice true delta (mu i)) j0)
    with (fst (probabilities_linear m full_choice true delta (mu i))) in *.
  rewrite E1, <- E2, <- prob_slope_plus.
  set (P := fst _). set (C := cond_of _). unfold prob_slope.
  assert (Z : forall k, X k / eps_scale m + - X k / eps_scale m = 0) by (intro; unfold Rdiv; ring).
  destruct (Nat.eqb (mH m) 0); rewrite ?Z.
  - rewrite (sumn_ext (mJ m) _ (fun _ => 0)) by (intros; rewrite Z; ring). rewrite sumn_zero. ring.
  - repeat (rewrite (sumn_ext (mJ m) _ (fun _ => 0)) by (intros; rewrite Z; ring); rewrite sumn_zero). unfold Rdiv. ring.
Qed.

(** At matched shares the column of the xi-by-theta Jacobian for a parameter in beta is minus its characteristic. *)
Lemma xi_by_beta_exact solve m a delta observed X :
  valid_market m -> valid_agents a ->
  (mH m <> O -> forall h, (h < mH m)%nat -> 0 <= grho m h) ->
  exact_solver (mJ m) solve ->
  (forall j, (j < mJ m)%nat -> observed j = market_shares m a true delta j) ->
  let P := probs m delta (amu a) in
  let C := conds m delta (amu a) in
  let x := xi_by_theta solve m (aI a) (aw a) observed P C (fun i => fst (utility_tangent m (P i) (C i) X)) in
  snd x = false -> forall j, (j < mJ m)%nat -> fst x j = - X j.
Proof.
  intros V VA Hpos HS Ho P C x Hx j Hj.
  assert (Hs : forall k, (k < mJ m)%nat -> observed k = sumn (aI a) (fun i => probs m delta (amu a) i k * aw a i)) by exact Ho.
  destruct (xi_jacobian_dominant m a delta observed V VA Hpos Hs) as [R1 R2].
  apply (dominant_unique (mJ m) _ _ (fst x) (fun k => - X k) R1 R2 (HS _ _ Hx)); [|exact Hj].
  apply (implicit_system m (aI a) (aw a) observed (fun _ => P) P C
    (fun i => fst (utility_tangent m (P i) (C i) X)) (fun k => - X k) 0 1 V); [lra| |reflexivity|].
  - intros y k _ Hk. symmetry. apply Hs, Hk.
  - intros i k Hk. eapply dlim_eq; [|apply dlim_const]. symmetry. apply offset_tangent; assumption.
Qed.

(** The column for a parameter that does not move utilities is zero. *)
Lemma xi_by_other_exact solve m a delta observed :
  valid_market m -> valid_agents a ->
  (mH m <> O -> forall h, (h < mH m)%nat -> 0 <= grho m h) ->
  exact_solver (mJ m) solve ->
  (forall j, (j < mJ m)%nat -> observed j = market_shares m a true delta j) ->
  let x := xi_by_theta solve m (aI a) (aw a) observed (probs m delta (amu a)) (conds m delta (amu a)) (fun _ _ => 0) in
  snd x = false -> forall j, (j < mJ m)%nat -> fst x j = 0.
Proof.
  intros V VA Hpos HS Ho x Hx j Hj.
  assert (Hs : forall k, (k < mJ m)%nat -> observed k = sumn (aI a) (fun i => probs m delta (amu a) i k * aw a i)) by exact Ho.
  destruct (xi_jacobian_dominant m a delta observed V VA Hpos Hs) as [R1 R2].
  apply (dominant_unique (mJ m) _ _ (fst x) (fun _ => 0) R1 R2 (HS _ _ Hx)); [|exact Hj].
  intros k Hk. rewrite (sumn_ext (mJ m) _ (fun _ => 0)) by (intros; ring). unfold shares_by_theta.
  rewrite (sumn_ext (aI a) _ (fun _ => 0)) by (intros; ring). rewrite !sumn_zero. ring.
Qed.

Section Beta.
  Variables (M : full_market) (k0 : nat).
  Hypothesis V : valid_market (fm M).
  Hypothesis Hk0 : (k0 < fK1 M)%nat.
  Let t := fbeta M k0.
  Let P := probs (fm M) (delta0 M) (update_mu M (var0 M)).
  Let C := conds (fm M) (delta0 M) (update_mu M (var0 M)).
  Let U := utility_derivatives M false (var0 M).

  Lemma with_beta_own : with_beta M k0 t = M.
  Proof.
    unfold with_beta, t. destruct M as [m I w K1 X1 b K2 X2 cf v d X20]. cbn. f_equal.
    apply functional_extensionality; intro c. destruct (Nat.eqb_spec c k0) as [->|]; reflexivity.
  Qed.

  Lemma with_beta_delta y : update_delta (with_beta M k0 y) (var0 M) = delta0 M.
  Proof.
    apply functional_extensionality; intros j. unfold update_delta. cbn.
    rewrite (sumn_ext (fK1 M) _ (fun _ => 0)); [rewrite sumn_zero; ring|].
    intros k Hk. destruct (uses (fX1 M k)); [ring|reflexivity].
  Qed.

  Lemma with_beta_utility_derivatives i j :
    derivable_pt_lim (fun y => utility_derivatives (with_beta M k0 y) false (var0 M) i j) t (beta_derivatives_tangent M k0 i j).
  Proof.
    unfold utility_derivatives, beta_derivatives_tangent. cbn [fm with_beta fK1 fX1 fbeta fK2 fX2 fcoef].
    assert (D : derivable_pt_lim (fun y =>
        sumn (fK1 M) (fun k => (if uses (fX1 M k) then dv1 (fX1 M k) j (var0 M j) else 0) * (if Nat.eqb k k0 then y else fbeta M k))
        + sumn (fK2 M) (fun k => (if uses (fX2 M k) then dv1 (fX2 M k) j (var0 M j) else 0) * fcoef M k j i)) t (X1_derivatives M j k0)).
    { eapply dlim_eq; [|apply dlim_plus; [|apply dlim_const]].
      2:{ apply (dlim_sumn (fK1 M) (fun k y => X1_derivatives M j k * (if Nat.eqb k k0 then y else fbeta M k)) t
            (fun k => if Nat.eqb k k0 then X1_derivatives M j k else 0)).
          intros k Hk. eapply dlim_eq; [|apply dlim_scal with (a := if Nat.eqb k k0 then 1 else 0)].
          - destruct (Nat.eqb k k0); ring.
          - destruct (Nat.eqb k k0); [apply dlim_id|apply dlim_const]. }
      rewrite (sumn_delta (fK1 M) k0 (fun k => X1_derivatives M j k) Hk0). ring. }
    destruct (Req_EM_T (eps_scale (fm M)) 1); [exact D|]. unfold Rdiv. apply (dlim_scal_r (/ eps_scale (fm M))). exact D.
  Qed.

  Lemma beta_capital_delta O j k : (j < mJ (fm M))%nat -> (k < mJ (fm M))%nat ->
    derivable_pt_lim (fun y => capital_delta (with_beta M k0 y) O (var0 M) j k) t
      (capital_delta_tangent (fm M) (fI M) (fw M) P C U beta_total_tangent beta_total_tangent
         (beta_derivatives_tangent M k0) (fun _ => 0) O j k).
  Proof.
    intros Hj Hk.
    assert (D := capital_delta_derive (fm M) (fI M) (fw M) t (fun h _ => grho (fm M) h) (fun _ => 0)
      (fun _ => P) (fun _ => C) (fun y => utility_derivatives (with_beta M k0 y) false (var0 M))
      beta_total_tangent beta_total_tangent (beta_derivatives_tangent M k0)
      (fun HH j Hj => rho_lt _ _ V HH Hj) (fun h => eq_refl) (fun j _ => dlim_const _ _)
      (fun i j _ => dlim_const _ _) (fun _ i j _ => dlim_const _ _)
      (fun i j _ => with_beta_utility_derivatives i j) O j k Hj Hk).
    cbv beta in D. rewrite with_beta_own in D.
    eapply dlim_ext; [|exact D].
    intros y. unfold capital_delta_curve, capital_delta, gamma_at, lamda_at.
    rewrite with_beta_delta. unfold P, C. cbn [fm fI fw with_beta].
    change (update_mu (with_beta M k0 y) (var0 M)) with (update_mu M (var0 M)).
    rewrite (with_own_rho (fm M)). reflexivity.
  Qed.

  Lemma eta_by_beta_derivative O observed eta inv e :
    0 < e ->
    (forall y, Rabs (y - t) < e -> solves (mJ (fm M)) (capital_delta (with_beta M k0 y) O (var0 M)) observed (eta y)) ->
    (forall j k, (j < mJ (fm M))%nat -> (k < mJ (fm M))%nat ->
       sumn (mJ (fm M)) (fun a => inv j a * capital_delta M O (var0 M) a k) = if Nat.eqb j k then 1 else 0) ->
    forall j, (j < mJ (fm M))%nat -> derivable_pt_lim (fun y => eta y j) t
      (eta_by_theta (mJ (fm M)) inv
        (capital_delta_tangent (fm M) (fI M) (fw M) P C U beta_total_tangent beta_total_tangent
           (beta_derivatives_tangent M k0) (fun _ => 0) O) (eta t) j).
  Proof.
    intros He Hs Hinv j Hj.
    apply (eta_differentiable (mJ (fm M)) (fun y => capital_delta (with_beta M k0 y) O (var0 M)) _ inv eta observed t e He); try assumption.
    - intros y a Hy Ha. apply (Hs y Hy a Ha).
    - intros a b Ha Hb. exact (beta_capital_delta O a b Ha Hb).
    - rewrite with_beta_own. exact Hinv.
  Qed.
End Beta.

Lemma net_of_derive v X b j : derivable_pt_lim (fun y => net_of v X y j) b (- X j).
Proof.
  unfold net_of. eapply dlim_eq; [|apply dlim_minus; [apply dlim_const|apply dlim_scal, dlim_id]]. ring.
Qed.

Lemma matching_unique m I w T sigma pi p observed y :
  valid_market m -> (forall i, (i < I)%nat -> 0 <= w i) ->
  (mH m <> O -> forall h, (h < mH m)%nat -> 0 <= grho m h) ->
  (forall j, (j < mJ m)%nat -> 0 < observed j) -> 0 < sumn I w -> sumn (mJ m) observed < sumn I w ->
  let a := mk_agents I w (mu_of T (sigma_with p sigma y) (pi_with p pi y)) in
  exists delta, (forall j, (j < mJ m)%nat -> market_shares m a true delta j = observed j) /\
    forall other, (forall j, (j < mJ m)%nat -> market_shares m a true other j = observed j) ->
      forall j, (j < mJ m)%nat -> other j = delta j.
Proof.
  intros V Hw Hr Ho HI HS a.
  assert (VA : valid_agents a).
  { split; [exact Hw|]. cbn [aI aw a].
    assert (N : forall n, 0 < sumn n w -> exists i, (i < n)%nat /\ 0 < w i).
    { induction n as [|n IH]; cbn [sumn]; intro H; [lra|]. destruct (Rlt_dec 0 (w n)) as [P|P]; [exists n; split; [lia|exact P]|].
      destruct IH as [i [Hi Pi]]; [lra|]. exists i. split; [lia|exact Pi]. }
    exact (N I HI). }
  destruct (delta_exists m a true observed V VA Hr Ho HS) as [d Hd]. exists d. split; [exact Hd|].
  intros other E j Hj. apply (shares_injective m a true other d V VA Hr); [|exact Hj].
  intros k Hk. rewrite (E k Hk), (Hd k Hk). reflexivity.
Qed.

(** One product whose price has a coefficient of minus one and whose share is one half. *)
Lemma beta_example :
  let M := flat_market 1 (fun _ => 1) in
  let O := fun _ _ : nat => 1 in
  let eta := fun y (_ : nat) => - 2 / y in
  (forall y, Rabs (y - fbeta M 0%nat) < / 2 ->
     solves (mJ (fm M)) (capital_delta (with_beta M 0 y) O (var0 M)) (fun _ => / 2) (eta y)) /\
  (forall j k, (j < mJ (fm M))%nat -> (k < mJ (fm M))%nat ->
     sumn (mJ (fm M)) (fun a => 4 * capital_delta M O (var0 M) a k) = if Nat.eqb j k then 1 else 0).
Proof.
  intros M O eta.
  assert (K : forall y, capital_delta (with_beta M 0 y) O (var0 M) 0%nat 0%nat = - y / 4).
  { intro y. unfold capital_delta, gamma_at, lamda_at, capital_gamma, capital_lamda.
    rewrite (with_beta_delta M 0 y).
    change (fm (with_beta M 0 y)) with one_market. change (mH one_market =? 0)%nat with true. cbv iota.
    change (fI (with_beta M 0 y)) with 1%nat. change (fw (with_beta M 0 y)) with (fun _ : nat => 1).
    assert (E := one_market_prob (delta0 M) (update_mu (with_beta M 0 y) (var0 M)) 0%nat
      ltac:(unfold update_mu, compute_mu; cbn; ring)).
    assert (HU : utility_derivatives (with_beta M 0 y) false (var0 M) 0%nat 0%nat = y).
    { unfold utility_derivatives. cbn. destruct (Req_EM_T 1 1); field. }
    cbn [sumn Nat.eqb]. rewrite HU, E. unfold O. field. }
  split.
  - intros y Hy j Hj. cbn in Hj. assert (j = 0%nat) by lia. subst j. change (mJ (fm M)) with 1%nat. cbn [sumn]. rewrite K. unfold eta.
    apply Rabs_def2 in Hy. cbn in Hy. field. lra.
  - intros j k Hj Hk. cbn in Hj, Hk. assert (j = 0%nat) by lia. assert (k = 0%nat) by lia. subst j k.
    change (mJ (fm M)) with 1%nat. cbn [sumn Nat.eqb]. rewrite <- (with_beta_own M 0 (flat_valid 1 _ Nat.lt_0_1) Nat.lt_0_1) at 1. rewrite K. cbn. field.
Qed.
