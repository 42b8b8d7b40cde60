(** Lemmas about PassModel. *)
From Coq Require Import Reals Lra Lia List Bool Arith FunctionalExtensionality.
From Verif Require Import Base DemandSpec DemandModel DemandProofs DemandShares DemandDeriv
  SupplyModel SupplySpec SupplyProofs DerivModel DerivProofs DerivCurve DerivParam DerivMore PassModel PassSpec.
Local Open Scope R_scope.

Definition exact_inverter (J : nat) (invert : inverter) : Prop :=
  forall A, snd (invert A) = false ->
  forall j k, (j < J)%nat -> (k < J)%nat -> sumn J (fun a => fst (invert A) j a * A a k) = if Nat.eqb j k then 1 else 0.

Lemma prob_slope_sum m P C n (v : nat -> nat -> R) j :
  prob_slope m P C (fun k => sumn n (fun l => v l k)) j = sumn n (fun l => prob_slope m P C (v l) j).
Proof.
  induction n as [|n IH]; cbn [sumn].
  - unfold prob_slope. rewrite (sumn_ext (mJ m) (fun k => P k * 0) (fun _ => 0)) by (intros; ring).
    rewrite (sumn_ext (mJ m) (fun k => membership m j k * (C k * 0)) (fun _ => 0)) by (intros; ring).
    rewrite sumn_zero. destruct (Nat.eqb (mH m) 0); [ring|]. unfold Rdiv; ring.
  - rewrite (prob_slope_plus m P C (fun k => sumn n (fun l => v l k)) (v n)), IH. reflexivity.
Qed.
Lemma cond_slope_sum m C n (v : nat -> nat -> R) j :
  cond_slope m C (fun k => sumn n (fun l => v l k)) j = sumn n (fun l => cond_slope m C (v l) j).
Proof.
  induction n as [|n IH]; cbn [sumn].
  - unfold cond_slope.
    rewrite (sumn_ext (mJ m) (fun k => membership m j k * (C k * 0)) (fun _ => 0)) by (intros; ring).
    rewrite sumn_zero. unfold Rdiv; ring.
  - rewrite (cond_slope_plus m C (fun k => sumn n (fun l => v l k)) (v n)), IH. reflexivity.
Qed.
Lemma prob_slope_scal m P C c v j : prob_slope m P C (fun k => c * v k) j = c * prob_slope m P C v j.
Proof.
  unfold prob_slope. rewrite (sumn_ext (mJ m) (fun k => P k * (c * v k)) (fun k => c * (P k * v k))) by (intros; ring).
  rewrite (sumn_ext (mJ m) (fun k => membership m j k * (C k * (c * v k))) (fun k => c * (membership m j k * (C k * v k)))) by (intros; ring).
  rewrite !sumn_scal. destruct (Nat.eqb (mH m) 0); unfold Rdiv; ring.
Qed.
Lemma cond_slope_scal m C c v j : cond_slope m C (fun k => c * v k) j = c * cond_slope m C v j.
Proof.
  unfold cond_slope.
  rewrite (sumn_ext (mJ m) (fun k => membership m j k * (C k * (c * v k))) (fun k => c * (membership m j k * (C k * v k)))) by (intros; ring).
  rewrite !sumn_scal. unfold Rdiv; ring.
Qed.
Lemma prob_slope_vJ m P C v v' j : (j < mJ m)%nat ->
  (forall k, (k < mJ m)%nat -> v k = v' k) -> prob_slope m P C v j = prob_slope m P C v' j.
Proof.
  intros Hj E. unfold prob_slope. rewrite (E j Hj).
  rewrite (sumn_ext _ (fun k => P k * v k) (fun k => P k * v' k)) by (intros; rewrite E by assumption; reflexivity).
  rewrite (sumn_ext _ (fun k => membership m j k * (C k * v k)) (fun k => membership m j k * (C k * v' k)))
    by (intros; rewrite E by assumption; reflexivity).
  reflexivity.
Qed.
Lemma cond_slope_vJ m C v v' j : (j < mJ m)%nat ->
  (forall k, (k < mJ m)%nat -> v k = v' k) -> cond_slope m C v j = cond_slope m C v' j.
Proof.
  intros Hj E. unfold cond_slope. rewrite (E j Hj).
  rewrite (sumn_ext _ (fun k => membership m j k * (C k * v k)) (fun k => membership m j k * (C k * v' k)))
    by (intros; rewrite E by assumption; reflexivity).
  reflexivity.
Qed.

Lemma decompose n (u dx : nat -> R) k : (k < n)%nat ->
  u k * dx k = sumn n (fun l => dx l * (if Nat.eqb k l then u k else 0)).
Proof.
  intros Hk. rewrite (sumn_ext n _ (fun l => if Nat.eqb l k then dx l * u k else 0)).
  - rewrite (sumn_delta n k (fun l => dx l * u k) Hk). ring.
  - intros l _. rewrite (Nat.eqb_sym l k). destruct (Nat.eqb k l); ring.
Qed.

Section PricePath.
  Variables (M : full_market) (x : R -> nat -> R) (t : R) (dx : nat -> R).
  Hypothesis V : valid_market (fm M).
  Hypothesis G : good_columns M (x t).
  Hypothesis G2 : twice_differentiable M (x t).
  Hypothesis DX : forall j, (j < mJ (fm M))%nat -> derivable_pt_lim (fun y => x y j) t (dx j).
  Let m := fm M.
  Let P := probs m (update_delta M (x t)) (update_mu M (x t)).
  Let C := conds m (update_delta M (x t)) (update_mu M (x t)).
  Let U := utility_derivatives M false (x t).
  Let U2 := utility_derivatives M true (x t).

  Lemma comp_derive (f f' : R -> R) j : (j < mJ m)%nat -> derivable_pt_lim f (x t j) (f' (x t j)) ->
    derivable_pt_lim (fun y => f (x y j)) t (f' (x t j) * dx j).
  Proof. intros Hj Hf. exact (derivable_pt_lim_comp (fun y => x y j) f t (dx j) _ (DX j Hj) Hf). Qed.

  Lemma utility_price_path i k : (k < mJ m)%nat ->
    derivable_pt_lim (fun y => utility m (update_delta M (x y)) (update_mu M (x y) i) k) t (U i k * dx k).
  Proof.
    intros Hk. destruct G as [A B]. unfold U, utility_derivatives. rewrite eps_div. unfold utility, Rdiv.
    set (s1 := sumn (fK1 M) _). set (s2 := sumn (fK2 M) _).
    apply dlim_eq with ((s1 * dx k + s2 * dx k) * / eps_scale m); [unfold m; ring|].
    apply (dlim_scal_r (/ eps_scale m)). apply dlim_plus.
    - unfold update_delta. eapply dlim_eq; [|apply dlim_plus; [apply dlim_const|]].
      2:{ apply (dlim_sumn (fK1 M) (fun c y => if uses (fX1 M c)
            then fbeta M c * (ev (fX1 M c) k (x y k) - ev (fX1 M c) k (var0 M k)) else 0) t
            (fun c => (if uses (fX1 M c) then dv1 (fX1 M c) k (x t k) else 0) * fbeta M c * dx k)).
          intros c Hc. destruct (uses (fX1 M c)) eqn:E; [|eapply dlim_eq; [|apply dlim_const]; ring].
          eapply dlim_eq; [|apply dlim_scal, dlim_minus; [apply (comp_derive (ev (fX1 M c) k) (dv1 (fX1 M c) k) k Hk)|apply dlim_const]].
          - ring.
          - apply A; assumption. }
      rewrite sumn_scal_r. unfold s1. ring.
    - unfold update_mu, compute_mu. eapply dlim_eq; [|
        apply (dlim_sumn (fK2 M) (fun c y => (if uses (fX2 M c) then ev (fX2 M c) k (x y k) else X2_0 M k c) * fcoef M c k i) t
            (fun c => (if uses (fX2 M c) then dv1 (fX2 M c) k (x t k) else 0) * fcoef M c k i * dx k))].
      + rewrite sumn_scal_r. reflexivity.
      + intros c Hc. destruct (uses (fX2 M c)) eqn:E; [|eapply dlim_eq; [|apply dlim_const]; ring].
        eapply dlim_eq; [|apply dlim_scal_r, (comp_derive (ev (fX2 M c) k) (dv1 (fX2 M c) k) k Hk)].
        * ring.
        * apply B; assumption.
  Qed.

  Lemma probs_price_path i j : (j < mJ m)%nat ->
    derivable_pt_lim (fun y => probs m (update_delta M (x y)) (update_mu M (x y)) i j) t
      (sumn (mJ m) (fun l => probability_derivatives m P C U l i j * dx l)).
  Proof.
    intros Hj. unfold probs at 1.
    eapply dlim_eq; [|apply (prob_derive m true (fun y => update_delta M (x y)) (fun y => update_mu M (x y) i) t _ j V Hj
      (fun k Hk => utility_price_path i k Hk))]. cbv zeta.
    rewrite (prob_slope_vJ m _ _ _ (fun k => sumn (mJ m) (fun l => dx l * (if Nat.eqb k l then U i k else 0))) j Hj)
      by (intros k Hk; apply (decompose (mJ m) (U i) dx k Hk)).
    rewrite prob_slope_sum. apply sumn_ext; intros l Hl.
    rewrite prob_slope_scal. rewrite Rmult_comm. f_equal.
    eapply dlim_unique; [|apply (probs_var_derive M (x t) V G l i j Hj Hl)].
    apply prob_derive_var; assumption.
  Qed.

  Lemma conds_price_path i j : mH m <> O -> (j < mJ m)%nat ->
    derivable_pt_lim (fun y => conds m (update_delta M (x y)) (update_mu M (x y)) i j) t
      (sumn (mJ m) (fun l => conditional_derivatives m C U l i j * dx l)).
  Proof.
    intros HH Hj.
    apply dlim_ext with (fun y => cond_of (probabilities_linear m full_choice true (update_delta M (x y)) (update_mu M (x y) i)) j);
      [intros; symmetry; apply conds_cond|].
    eapply dlim_eq; [|apply (cond_derive m true (fun y => update_delta M (x y)) (fun y => update_mu M (x y) i) t _ j V HH Hj
      (fun k Hk => utility_price_path i k Hk))].
    rewrite (cond_slope_vJ m _ _ (fun k => sumn (mJ m) (fun l => dx l * (if Nat.eqb k l then U i k else 0))) j Hj)
      by (intros k Hk; apply (decompose (mJ m) (U i) dx k Hk)).
    rewrite cond_slope_sum. apply sumn_ext; intros l Hl.
    rewrite cond_slope_scal. rewrite Rmult_comm. f_equal.
    eapply dlim_unique; [|apply (conds_var_derive M (x t) V G l i j HH Hj Hl)].
    eapply dlim_eq; [|apply (cond_derive m true (fun y => update_delta M (upd (x t) l y))
       (fun y => update_mu M (upd (x t) l y) i) (x t l) (fun k => if Nat.eqb k l then U i k else 0) j V HH Hj)].
    - apply cond_slope_ext; [assumption|]. intros k Hk. apply cond_ext; try assumption. intros; apply utility_upd_same.
    - intros k Hk. apply utility_curve; assumption.
  Qed.

  Lemma derivatives_price_path i j : (j < mJ m)%nat ->
    derivable_pt_lim (fun y => utility_derivatives M false (x y) i j) t (U2 i j * dx j).
  Proof.
    intros Hj. destruct G2 as [A B]. unfold U2, utility_derivatives. rewrite eps_div.
    set (s1 := sumn (fK1 M) _). set (s2 := sumn (fK2 M) _).
    apply dlim_eq with ((s1 * dx j + s2 * dx j) * / eps_scale m); [unfold m, Rdiv; ring|].
    apply dlim_ext with (fun y =>
        (sumn (fK1 M) (fun k => (if uses (fX1 M k) then dv1 (fX1 M k) j (x y j) else 0) * fbeta M k)
         + sumn (fK2 M) (fun k => (if uses (fX2 M k) then dv1 (fX2 M k) j (x y j) else 0) * fcoef M k j i)) * / eps_scale m).
    { intros y. rewrite eps_div. reflexivity. }
    apply (dlim_scal_r (/ eps_scale m)). unfold s1, s2. rewrite <- !sumn_scal_r. apply dlim_plus.
    - apply (dlim_sumn (fK1 M) (fun k y => (if uses (fX1 M k) then dv1 (fX1 M k) j (x y j) else 0) * fbeta M k)).
      intros c Hc. destruct (uses (fX1 M c)) eqn:E; [|eapply dlim_eq; [|apply dlim_const]; ring].
      eapply dlim_eq; [|apply dlim_scal_r, (comp_derive (dv1 (fX1 M c) j) (dv2 (fX1 M c) j) j Hj)].
      + ring.
      + apply A; assumption.
    - apply (dlim_sumn (fK2 M) (fun k y => (if uses (fX2 M k) then dv1 (fX2 M k) j (x y j) else 0) * fcoef M k j i)).
      intros c Hc. destruct (uses (fX2 M c)) eqn:E; [|eapply dlim_eq; [|apply dlim_const]; ring].
      eapply dlim_eq; [|apply dlim_scal_r, (comp_derive (dv1 (fX2 M c) j) (dv2 (fX2 M c) j) j Hj)].
      + ring.
      + apply B; assumption.
  Qed.

  Lemma shares_price_path j : (j < mJ m)%nat ->
    derivable_pt_lim (fun y => shares_at M (x y) j) t (sumn (mJ m) (fun l => shares_jacobian M (x t) j l * dx l)).
  Proof.
    intros Hj. unfold shares_at.
    eapply dlim_eq; [|apply (dlim_sumn (fI M)
       (fun i y => probs (fm M) (update_delta M (x y)) (update_mu M (x y)) i j * fw M i)); intros i Hi;
       apply (dlim_scal_r (fw M i)), probs_price_path, Hj].
    rewrite (sumn_ext (fI M) _ (fun i => sumn (mJ m) (fun l => probability_derivatives m P C U l i j * fw M i * dx l))).
    2:{ intros i _. rewrite <- sumn_scal_r. apply sumn_ext; intros l _. ring. }
    rewrite sumn_swap. apply sumn_ext; intros l Hl. rewrite sumn_scal_r. f_equal.
    eapply dlim_unique; [|apply (jacobian_is_derivative M (x t) j l V G Hj Hl)].
    unfold shares_at.
    apply (dlim_sumn (fI M) (fun i y => probs (fm M) (update_delta M (upd (x t) l y)) (update_mu M (upd (x t) l y)) i j * fw M i)).
    intros i Hi. apply (dlim_scal_r (fw M i)). apply probs_var_derive; assumption.
  Qed.

  (** [hessian] entries are linear in the tangents. *)
  Let dP i j := sumn (mJ m) (fun l => probability_derivatives m P C U l i j * dx l).
  Let dC i j := sumn (mJ m) (fun l => conditional_derivatives m C U l i j * dx l).
  Let dU i j := U2 i j * dx j.

  Lemma pud_linear i k : (k < mJ m)%nat ->
    pud_tangent P U dP dU i k = sumn (mJ m) (fun l => probability_utility_second_derivatives m P C U U2 l i k * dx l).
  Proof.
    intros Hk. unfold pud_tangent, dP, dU, probability_utility_second_derivatives.
    transitivity (sumn (mJ m) (fun l => probability_derivatives m P C U l i k * dx l * U i k)
       + sumn (mJ m) (fun l => if Nat.eqb l k then P i k * U2 i k * dx k else 0)).
    - rewrite sumn_scal_r. rewrite (sumn_delta (mJ m) k (fun _ => P i k * U2 i k * dx k) Hk). ring.
    - rewrite <- sumn_plus. apply sumn_ext; intros l _. rewrite (Nat.eqb_sym k l).
      destruct (Nat.eqb_spec l k) as [->|]; ring.
  Qed.

  Lemma sum_linear I (f : nat -> R) (g : nat -> nat -> R) J' (h : nat -> R) :
    sumn I (fun i => f i * sumn J' (fun l => g l i * h l)) = sumn J' (fun l => sumn I (fun i => f i * g l i) * h l).
  Proof.
    rewrite (sumn_ext I _ (fun i => sumn J' (fun l => f i * g l i * h l))).
    2:{ intros i _. rewrite <- sumn_scal. apply sumn_ext; intros; ring. }
    rewrite sumn_swap. apply sumn_ext; intros l _. rewrite sumn_scal_r. reflexivity.
  Qed.

  Lemma lamda_linear j : (j < mJ m)%nat ->
    capital_lamda_tangent m (fI M) (fw M) P U dP dU (fun _ => 0) j
    = sumn (mJ m) (fun l => capital_lamda_tensor m (fI M) (fw M) P C U U2 j l * dx l).
  Proof.
    intros Hj. unfold capital_lamda_tangent, capital_lamda_tensor.
    assert (E : sumn (fI M) (fun i => pud_tangent P U dP dU i j * fw M i)
       = sumn (mJ m) (fun l => sumn (fI M) (fun i => probability_utility_second_derivatives m P C U U2 l i j * fw M i) * dx l)).
    { rewrite (sumn_ext (fI M) _ (fun i => fw M i * sumn (mJ m) (fun l => probability_utility_second_derivatives m P C U U2 l i j * dx l)))
        by (intros; rewrite pud_linear by assumption; ring).
      rewrite (sum_linear (fI M) (fw M) (fun l i => probability_utility_second_derivatives m P C U U2 l i j)).
      apply sumn_ext; intros l _. f_equal. apply sumn_ext; intros; ring. }
    rewrite E. destruct (Nat.eqb (mH m) 0); [reflexivity|].
    unfold Rdiv. rewrite Rmult_0_l, Rmult_0_l, Rplus_0_r. rewrite <- sumn_scal_r. apply sumn_ext; intros; ring.
  Qed.

  Lemma gamma_linear j k : (j < mJ m)%nat -> (k < mJ m)%nat ->
    capital_gamma_tangent m (fI M) (fw M) P C U dP dC dU (fun _ => 0) j k
    = sumn (mJ m) (fun l => capital_gamma_tensor m (fI M) (fw M) P C U U2 j k l * dx l).
  Proof.
    intros Hj Hk. unfold capital_gamma_tangent, capital_gamma_tensor.
    assert (E1 : forall X : nat -> nat -> R,
      sumn (fI M) (fun i => X i j * (fw M i * pud_tangent P U dP dU i k))
      = sumn (mJ m) (fun l => sumn (fI M) (fun i => X i j * (fw M i * probability_utility_second_derivatives m P C U U2 l i k)) * dx l)).
    { intros X.
      rewrite (sumn_ext (fI M) _ (fun i => (X i j * fw M i) * sumn (mJ m) (fun l => probability_utility_second_derivatives m P C U U2 l i k * dx l)))
        by (intros; rewrite pud_linear by assumption; ring).
      rewrite (sum_linear (fI M) (fun i => X i j * fw M i) (fun l i => probability_utility_second_derivatives m P C U U2 l i k)).
      apply sumn_ext; intros l _. f_equal. apply sumn_ext; intros; ring. }
    assert (E2 : forall Y : nat -> nat -> nat -> R,
      sumn (fI M) (fun i => sumn (mJ m) (fun l => Y l i j * dx l) * (fw M i * (P i k * U i k)))
      = sumn (mJ m) (fun l => sumn (fI M) (fun i => Y l i j * (fw M i * (P i k * U i k))) * dx l)).
    { intros Y.
      rewrite (sumn_ext (fI M) _ (fun i => (fw M i * (P i k * U i k)) * sumn (mJ m) (fun l => Y l i j * dx l)))
        by (intros; ring).
      rewrite (sum_linear (fI M) (fun i => fw M i * (P i k * U i k)) (fun l i => Y l i j)).
      apply sumn_ext; intros l _. f_equal. apply sumn_ext; intros; ring. }
    cbv zeta. rewrite !(E1 P).
    assert (E3 := E2 (fun l i j => probability_derivatives m P C U l i j)). cbv beta in E3.
    change (sumn (fI M) (fun i => dP i j * (fw M i * (P i k * U i k))) = sumn (mJ m) (fun l =>
      sumn (fI M) (fun i => probability_derivatives m P C U l i j * (fw M i * (P i k * U i k))) * dx l)) in E3.
    rewrite !E3.
    destruct (Nat.eqb (mH m) 0); [rewrite <- sumn_plus; apply sumn_ext; intros; ring|].
    rewrite (E1 C). unfold dC. rewrite (E2 (fun l i j => conditional_derivatives m C U l i j)).
    unfold Rdiv. rewrite Rmult_0_l, Rmult_0_l, Rmult_0_l, Rplus_0_r.
    rewrite <- !sumn_plus, <- sumn_scal, <- sumn_plus. apply sumn_ext; intros; ring.
  Qed.

  Lemma capital_delta_price_path O j k : (j < mJ m)%nat -> (k < mJ m)%nat ->
    derivable_pt_lim (fun y => capital_delta M O (x y) j k) t
      (sumn (mJ m) (fun l => - O j k * shares_hessian M (x t) k j l * dx l)).
  Proof.
    intros Hj Hk.
    assert (D := capital_delta_derive m (fI M) (fw M) t (fun h _ => grho m h) (fun _ => 0)
      (fun y => probs m (update_delta M (x y)) (update_mu M (x y)))
      (fun y => conds m (update_delta M (x y)) (update_mu M (x y)))
      (fun y => utility_derivatives M false (x y)) dP dC dU
      (fun HH j Hj => rho_lt _ _ V HH Hj) (fun _ => eq_refl) (fun _ _ => dlim_const _ _)
      (fun i j Hj => probs_price_path i j Hj)
      (fun HH i j Hj => conds_price_path i j HH Hj)
      derivatives_price_path O j k Hj Hk).
    cbv beta in D.
    eapply dlim_eq; [|eapply dlim_ext; [|exact D]].
    - unfold capital_delta_tangent. fold P C U. rewrite gamma_linear, lamda_linear by assumption.
      unfold shares_hessian, hessian_of. fold m P C U U2.
      destruct (Nat.eqb k j).
      + rewrite <- sumn_minus, <- sumn_scal_r. apply sumn_ext; intros; ring.
      + rewrite Rminus_0_r, <- sumn_scal_r. apply sumn_ext; intros; ring.
    - intros y. unfold capital_delta_curve, capital_delta, gamma_at, lamda_at.
      unfold with_rho.
      replace (mk_market (mJ m) (mH m) (gid m) (rho_multi m) (fun h => grho m h) (eps_scale m))
        with m by (unfold m; destruct (fm M); reflexivity).
      reflexivity.
  Qed.
End PricePath.

(** ** Pass-through *)
(** Differentiable paths stay near. *)
Lemma path_near J e (p : R -> nat -> R) t dp : 0 < e ->
  (forall j, (j < J)%nat -> derivable_pt_lim (fun y => p y j) t (dp j)) ->
  exists d, 0 < d /\ forall y, Rabs (y - t) < d -> near J e (p t) (p y).
Proof.
  intros He. induction J as [|J IH]; intros D.
  - exists 1. split; [lra|]. intros y _ j Hj. lia.
  - destruct IH as [d [Hd N]]; [intros; apply D; lia|].
    assert (C : continuity_pt (fun y => p y J) t).
    { apply derivable_continuous_pt. exists (dp J). apply D. lia. }
    destruct (C e He) as [d' [Hd' N']].
    exists (Rmin d d'). split; [apply Rmin_pos; assumption|]. intros y Hy j Hj.
    assert (B1 := Rmin_l d d'). assert (B2 := Rmin_r d d').
    destruct (Nat.eq_dec j J) as [->|Hne]; [|apply N; [lra|lia]].
    destruct (Req_dec y t) as [->|Hyt]; [replace (p t J - p t J) with 0 by ring; rewrite Rabs_R0; assumption|].
    apply N'. split; [split; [exact I|]|]; [intros Q; apply Hyt; symmetry; exact Q|]. simpl. unfold R_dist. lra.
Qed.

Lemma passthrough_path invert M O observed r p c t dp dc :
  valid_market (fm M) -> 0 < r -> (forall y, near (mJ (fm M)) r (var0 M) y -> good_columns M y) ->
  twice_differentiable M (var0 M) ->
  exact_inverter (mJ (fm M)) invert ->
  (forall x j k, near (mJ (fm M)) r (var0 M) x -> (j < mJ (fm M))%nat -> (k < mJ (fm M))%nat -> O j k <> 0 ->
     shares_jacobian M x j k = shares_jacobian M x k j) ->
  (forall j, (j < mJ (fm M))%nat -> observed j = shares_at M (var0 M) j) ->
  pt_intra_firm_error (compute_passthrough invert M O observed) = false ->
  pt_inversion_error (compute_passthrough invert M O observed) = false ->
  (forall j, (j < mJ (fm M))%nat -> derivable_pt_lim (fun y => p y j) t (dp j)) ->
  (forall j, (j < mJ (fm M))%nat -> derivable_pt_lim (fun y => c y j) t (dc j)) ->
  (exists e, 0 < e /\ forall y, Rabs (y - t) < e ->
     markup_equation (mJ (fm M)) O (shares_jacobian M (p y)) (shares_at M (p y)) (fun k => p y k - c y k)) ->
  p t = var0 M ->
  forall j, (j < mJ (fm M))%nat ->
  dp j = sumn (mJ (fm M)) (fun k => pt_matrix (compute_passthrough invert M O observed) j k * dc k).
Proof.
  intros V Hr GN G2 HI Hsym Ho B1 B2 DP DC [e [He Heq]] Hp.
  assert (G : good_columns M (var0 M)) by (apply GN, near_self; assumption).
  unfold compute_passthrough in *.
  assert (I1 := HI (passthrough_capital_delta M O)).
  destruct (invert (passthrough_capital_delta M O)) as [inv bad1]. cbn [fst snd] in I1.
  assert (I2 := HI (passthrough_inverse M O inv observed)).
  destruct (invert (passthrough_inverse M O inv observed)) as [pt bad2]. cbn [fst snd pt_matrix pt_intra_firm_error pt_inversion_error] in *.
  specialize (I1 B1). specialize (I2 B2).
  set (J := mJ (fm M)) in *.
  set (jac := shares_jacobian M (var0 M)) in *.
  (* symmetry of second derivatives *)
  assert (Hsym2 : forall j k l, (j < J)%nat -> (k < J)%nat -> (l < J)%nat -> O j k <> 0 ->
     shares_hessian M (var0 M) j k l = shares_hessian M (var0 M) k j l).
  { intros j k l Hj Hk Hl HO.
    eapply dlim_unique; [apply (hessian_derive M (var0 M) V G G2 j k l Hj Hk Hl)|].
    apply dlim_ext_near with (fun y => shares_jacobian M (upd (var0 M) l y) k j) r;
      [assumption| |apply (hessian_derive M (var0 M) V G G2 k j l Hk Hj Hl)].
    intros y Hy. symmetry. apply Hsym; try assumption. apply near_upd; assumption. }
  (* code's matrices *)
  assert (ED : forall j k, (j < J)%nat -> (k < J)%nat -> capital_delta M O (var0 M) j k = passthrough_capital_delta M O j k).
  { intros j k Hj Hk. rewrite capital_delta_jacobian. unfold passthrough_capital_delta.
    destruct (Req_EM_T (O j k) 0) as [E|E]; [rewrite E; ring|]. rewrite (Hsym (var0 M) j k (near_self _ _ _ Hr) Hj Hk E). ring. }
  set (mk := fun k => p t k - c t k).
  assert (Et : Rabs (t - t) < e) by (unfold Rminus; rewrite Rplus_opp_r, Rabs_R0; assumption).
  assert (Hs : forall y j, Rabs (y - t) < e -> (j < J)%nat ->
     sumn J (fun k => capital_delta M O (p y) j k * (p y k - c y k)) = shares_at M (p y) j).
  { intros y j Hy Hj. assert (E := Heq y Hy j Hj). cbv beta in E.
    rewrite (sumn_ext J _ (fun k => - (O j k * shares_jacobian M (p y) k j * (p y k - c y k))))
      by (intros; rewrite capital_delta_jacobian; ring).
    rewrite sumn_opp. fold J in E. lra. }
  (* markups *)
  assert (Hm : forall a, (a < J)%nat -> sumn J (fun j => inv a j * observed j) = mk a).
  { intros a Ha.
    rewrite (sumn_ext J _ (fun j => sumn J (fun k => inv a j * passthrough_capital_delta M O j k * mk k))).
    2:{ intros j Hj. rewrite (Ho j Hj), <- Hp, <- (Hs t j Et Hj). rewrite <- sumn_scal. apply sumn_ext; intros k Hk.
        rewrite <- (ED j k Hj Hk), <- Hp. unfold mk. ring. }
    rewrite sumn_swap.
    rewrite (sumn_ext J _ (fun k => if Nat.eqb k a then mk k else 0)).
    2:{ intros k Hk. rewrite sumn_scal_r, (I1 a k Ha Hk), (Nat.eqb_sym a k). destruct (Nat.eqb k a); ring. }
    apply (sumn_delta J a mk Ha). }
  (* differentiated equilibrium *)
  assert (HE : forall j, (j < J)%nat ->
     sumn J (fun l => jac j l * dp l)
     = sumn J (fun k => sumn J (fun l => passthrough_capital_delta_derivatives M O l j k * dp l) * mk k
                        + passthrough_capital_delta M O j k * (dp k - dc k))).
  { intros j Hj.
    assert (Gt : good_columns M (p t)) by (rewrite Hp; assumption).
    assert (G2t : twice_differentiable M (p t)) by (rewrite Hp; assumption).
    assert (D1 := shares_price_path M p t dp V Gt DP j Hj). rewrite Hp in D1. fold jac J in D1.
    assert (D2 : derivable_pt_lim (fun y => sumn J (fun k => capital_delta M O (p y) j k * (p y k - c y k))) t
       (sumn J (fun k => sumn J (fun l => passthrough_capital_delta_derivatives M O l j k * dp l) * mk k
                        + passthrough_capital_delta M O j k * (dp k - dc k)))).
    { apply (dlim_sumn J (fun k y => capital_delta M O (p y) j k * (p y k - c y k))). intros k Hk.
      eapply dlim_eq; [|apply dlim_mult; [apply (capital_delta_price_path M p t dp V Gt G2t DP O j k Hj Hk)
                                          |apply dlim_minus; [apply DP; assumption|apply DC; assumption]]].
      cbv beta. rewrite Hp. rewrite (ED j k Hj Hk). f_equal. unfold mk. rewrite Hp. f_equal.
      apply sumn_ext; intros l Hl. unfold passthrough_capital_delta_derivatives.
      destruct (Req_EM_T (O j k) 0) as [E|E]; [rewrite E; ring|]. rewrite (Hsym2 j k l Hj Hk Hl E). reflexivity. }
    eapply dlim_unique; [exact D1|].
    eapply dlim_ext_near; [exact He| |exact D2]. intros y Hy. apply Hs; assumption. }
  (* the inverse of pass-through sends dp to dc *)
  assert (HP : forall a, (a < J)%nat -> sumn J (fun l => passthrough_inverse M O inv observed a l * dp l) = dc a).
  { intros a Ha.
    assert (E1 : forall l, (l < J)%nat -> passthrough_inverse M O inv observed a l
       = sumn J (fun j => inv a j * (sumn J (fun k => passthrough_capital_delta_derivatives M O l j k * mk k) - jac j l))
         + (if Nat.eqb a l then 1 else 0)).
    { intros l Hl. unfold passthrough_inverse, matvec, matmul. cbv zeta. fold J jac.
      set (D := passthrough_capital_delta_derivatives M O l).
      assert (E : sumn J (fun k => sumn J (fun b => sumn J (fun j => inv a j * D j b) * inv b k) * observed k)
                  = sumn J (fun j => inv a j * sumn J (fun b => D j b * mk b))).
      { rewrite (sumn_ext J _ (fun k => sumn J (fun b => sumn J (fun j => inv a j * D j b) * (inv b k * observed k))))
          by (intros; rewrite <- sumn_scal_r; apply sumn_ext; intros; ring).
        rewrite sumn_swap.
        rewrite (sumn_ext J _ (fun b => sumn J (fun j => inv a j * (D j b * mk b)))).
        2:{ intros b Hb. rewrite sumn_scal, (Hm b Hb), <- sumn_scal_r. apply sumn_ext; intros; ring. }
        rewrite sumn_swap. apply sumn_ext; intros j _. rewrite sumn_scal. reflexivity. }
      rewrite E.
      rewrite (sumn_ext J (fun j => inv a j * (sumn J (fun k => D j k * mk k) - jac j l))
        (fun j => inv a j * sumn J (fun k => D j k * mk k) - inv a j * jac j l)) by (intros; ring).
      rewrite sumn_minus. ring. }
    rewrite (sumn_ext J _ (fun l => sumn J (fun j => inv a j * (sumn J (fun k => passthrough_capital_delta_derivatives M O l j k * mk k) - jac j l)) * dp l
         + (if Nat.eqb l a then dp l else 0))).
    2:{ intros l Hl. rewrite (E1 l Hl), (Nat.eqb_sym a l). destruct (Nat.eqb l a); ring. }
    rewrite sumn_plus, (sumn_delta J a dp Ha).
    rewrite (sumn_ext J _ (fun l => sumn J (fun j => inv a j * ((sumn J (fun k => passthrough_capital_delta_derivatives M O l j k * mk k) - jac j l) * dp l))))
      by (intros; rewrite <- sumn_scal_r; apply sumn_ext; intros; ring).
    rewrite sumn_swap.
    rewrite (sumn_ext J _ (fun j => inv a j * - sumn J (fun k => passthrough_capital_delta M O j k * (dp k - dc k)))).
    2:{ intros j Hj. rewrite sumn_scal. f_equal.
        rewrite (sumn_ext J _ (fun l => sumn J (fun k => passthrough_capital_delta_derivatives M O l j k * mk k) * dp l - jac j l * dp l))
          by (intros; ring).
        rewrite sumn_minus, (HE j Hj), sumn_plus.
        assert (E : sumn J (fun l => sumn J (fun k => passthrough_capital_delta_derivatives M O l j k * mk k) * dp l)
                  = sumn J (fun k => sumn J (fun l => passthrough_capital_delta_derivatives M O l j k * dp l) * mk k)).
        { rewrite (sumn_ext J _ (fun l => sumn J (fun k => passthrough_capital_delta_derivatives M O l j k * mk k * dp l)))
            by (intros; rewrite <- sumn_scal_r; reflexivity).
          rewrite sumn_swap. apply sumn_ext; intros k _. rewrite <- sumn_scal_r. apply sumn_ext; intros; ring. }
        rewrite E. ring. }
    rewrite (sumn_ext J _ (fun j => - sumn J (fun k => inv a j * passthrough_capital_delta M O j k * (dp k - dc k)))).
    2:{ intros j _. rewrite <- Ropp_mult_distr_r, <- sumn_scal. f_equal. apply sumn_ext; intros; ring. }
    rewrite sumn_opp, sumn_swap.
    rewrite (sumn_ext J _ (fun k => if Nat.eqb k a then dp k - dc k else 0)).
    2:{ intros k Hk. rewrite sumn_scal_r, (I1 a k Ha Hk), (Nat.eqb_sym a k). destruct (Nat.eqb k a); ring. }
    rewrite (sumn_delta J a (fun k => dp k - dc k) Ha). ring. }
  intros j Hj.
  rewrite (sumn_ext J _ (fun k => sumn J (fun l => pt j k * passthrough_inverse M O inv observed k l * dp l))).
  2:{ intros k Hk. rewrite <- (HP k Hk), <- sumn_scal. apply sumn_ext; intros; ring. }
  rewrite sumn_swap.
  rewrite (sumn_ext J _ (fun l => if Nat.eqb l j then dp l else 0)).
  2:{ intros l Hl. rewrite sumn_scal_r, (I2 j l Hj Hl), (Nat.eqb_sym j l). destruct (Nat.eqb l j); ring. }
  symmetry. apply (sumn_delta J j dp Hj).
Qed.

Lemma passthrough_correct invert M O observed r :
  valid_market (fm M) -> 0 < r -> (forall y, near (mJ (fm M)) r (var0 M) y -> good_columns M y) ->
  twice_differentiable M (var0 M) ->
  exact_inverter (mJ (fm M)) invert ->
  (forall j, (j < mJ (fm M))%nat -> O j j = 1) ->
  (forall x j k, near (mJ (fm M)) r (var0 M) x -> (j < mJ (fm M))%nat -> (k < mJ (fm M))%nat -> O j k <> 0 ->
     shares_jacobian M x j k = shares_jacobian M x k j) ->
  (forall j, (j < mJ (fm M))%nat -> observed j = shares_at M (var0 M) j) ->
  pt_intra_firm_error (compute_passthrough invert M O observed) = false ->
  pt_inversion_error (compute_passthrough invert M O observed) = false ->
  is_passthrough (mJ (fm M)) O (shares_at M) (var0 M) (pt_matrix (compute_passthrough invert M O observed)).
Proof.
  intros V Hr GN G2 HI HO Hsym Ho B1 B2 p c t dp dc [D1 D2 [e [He Heq]]] Hp j Hj.
  apply (passthrough_path invert M O observed r p c t dp dc); try assumption.
  destruct (path_near (mJ (fm M)) r p t dp Hr D1) as [d [Hd N]].
  exists (Rmin e d). split; [apply Rmin_pos; assumption|]. intros y Hy.
  assert (B3 := Rmin_l e d). assert (B4 := Rmin_r e d).
  apply bertrand_iff_markup; try assumption; [|apply Heq; lra].
  apply GN. rewrite <- Hp. apply N. lra.
Qed.

(** Prices that enter linearly with a coefficient common to all products. *)
Lemma passthrough_common invert M O observed r :
  valid_market (fm M) -> 0 < r -> (forall y, near (mJ (fm M)) r (var0 M) y -> good_columns M y) ->
  twice_differentiable M (var0 M) ->
  exact_inverter (mJ (fm M)) invert ->
  (forall j, (j < mJ (fm M))%nat -> O j j = 1) ->
  (forall x i a b, near (mJ (fm M)) r (var0 M) x -> (i < fI M)%nat -> (a < mJ (fm M))%nat -> (b < mJ (fm M))%nat ->
     utility_derivatives M false x i a = utility_derivatives M false x i b) ->
  (forall j, (j < mJ (fm M))%nat -> observed j = shares_at M (var0 M) j) ->
  pt_intra_firm_error (compute_passthrough invert M O observed) = false ->
  pt_inversion_error (compute_passthrough invert M O observed) = false ->
  is_passthrough (mJ (fm M)) O (shares_at M) (var0 M) (pt_matrix (compute_passthrough invert M O observed)).
Proof.
  intros V Hr G G2 HI HO HU. apply passthrough_correct with r; try assumption.
  intros x j k Hx Hj Hk _. unfold shares_jacobian. apply jacobian_symmetric; try assumption. intros i Hi. apply HU; assumption.
Qed.

(** Single-product firms. *)
Lemma passthrough_single invert M O observed r :
  valid_market (fm M) -> 0 < r -> (forall y, near (mJ (fm M)) r (var0 M) y -> good_columns M y) ->
  twice_differentiable M (var0 M) ->
  exact_inverter (mJ (fm M)) invert ->
  (forall j k, (j < mJ (fm M))%nat -> (k < mJ (fm M))%nat -> O j k = if Nat.eqb j k then 1 else 0) ->
  (forall j, (j < mJ (fm M))%nat -> observed j = shares_at M (var0 M) j) ->
  pt_intra_firm_error (compute_passthrough invert M O observed) = false ->
  pt_inversion_error (compute_passthrough invert M O observed) = false ->
  is_passthrough (mJ (fm M)) O (shares_at M) (var0 M) (pt_matrix (compute_passthrough invert M O observed)).
Proof.
  intros V Hr G G2 HI HO. apply passthrough_correct with r; try assumption.
  - intros j Hj. rewrite (HO j j Hj Hj), Nat.eqb_refl. reflexivity.
  - intros x j k _ Hj Hk H. rewrite (HO j k Hj Hk) in H. destruct (Nat.eqb_spec j k) as [->|]; [reflexivity|contradiction].
Qed.

(** ** A counterexample *)
Definition two_inverter : inverter := fun A =>
  let d := A O O * A 1%nat 1%nat - A O 1%nat * A 1%nat O in
  (fun j k => if Nat.eqb j k then (if Nat.eqb j 0 then A 1%nat 1%nat else A O O) / d
              else - A j k / d,
   if Req_EM_T d 0 then true else false).

Lemma two_inverter_exact : exact_inverter 2 two_inverter.
Proof.
  intros A H j k Hj Hk. unfold two_inverter in *. cbn [fst snd] in *.
  destruct (Req_EM_T _ 0) as [|Hd]; [discriminate|].
  destruct j as [|[|]]; [| |lia]; destruct k as [|[|]]; [| |lia| | |lia]; cbn [sumn Nat.eqb]; field; exact Hd.
Qed.

Lemma flat2_prob c x i j : (j < 2)%nat ->
  probs (fm (flat_market 2 c)) (update_delta (flat_market 2 c) x) (update_mu (flat_market 2 c) x) i j
  = exp (- (c j * x j)) / (1 + exp (- (c O * x O)) + exp (- (c 1%nat * x 1%nat))).
Proof.
  intros Hj. unfold probs. rewrite full_choice_with.
  destruct (probabilities_spec (fm (flat_market 2 c)) true true None None None
      (update_delta (flat_market 2 c) x) (update_mu (flat_market 2 c) x i)
      (flat_valid 2 c ltac:(lia))) as [A _].
  destruct (A eq_refl) as [A1 _]. rewrite (A1 j Hj). rewrite included_all.
  unfold logit, all_goods. simpl indR. change (mJ (fm (flat_market 2 c))) with 2%nat.
  assert (EU : forall k, utility (fm (flat_market 2 c)) (update_delta (flat_market 2 c) x)
     (update_mu (flat_market 2 c) x i) k = - (c k * x k)).
  { intros k. unfold utility, update_delta, update_mu, compute_mu; simpl. field. }
  rewrite EU. cbn [sumn]. rewrite !EU. f_equal. ring.
Qed.

Lemma flat2_shares c x j : (j < 2)%nat ->
  shares_at (flat_market 2 c) x j = exp (- (c j * x j)) / (1 + exp (- (c O * x O)) + exp (- (c 1%nat * x 1%nat))).
Proof.
  intros Hj. unfold shares_at. assert (HP := flat2_prob c x 0 j Hj).
  set (P := probs _ _ _) in *. clearbody P. change (fI (flat_market 2 c)) with 1%nat. cbn [sumn].
  rewrite HP. simpl. ring.
Qed.

Lemma flat2_jacobian c x j k : (j < 2)%nat -> (k < 2)%nat ->
  let s := fun j => exp (- (c j * x j)) / (1 + exp (- (c O * x O)) + exp (- (c 1%nat * x 1%nat))) in
  shares_jacobian (flat_market 2 c) x j k = - c k * ((if Nat.eqb j k then s j else 0) - s j * s k).
Proof.
  intros Hj Hk s. unfold shares_jacobian, jacobian_of, capital_lamda, capital_gamma.
  assert (HP := flat2_prob c x 0 j Hj). assert (HP2 := flat2_prob c x 0 k Hk).
  fold (s j) in HP. fold (s k) in HP2. clearbody s.
  assert (HU := flat_derivative 2 c x 0 k). assert (HU2 := flat_derivative 2 c x 0 j).
  set (P := probs _ _ _) in *. set (U := utility_derivatives _ _ _) in *. clearbody P U.
  change (fI (flat_market 2 c)) with 1%nat. change (mH (fm (flat_market 2 c)) =? 0)%nat with true.
  cbn [sumn]. cbv iota. rewrite HP, HP2, HU, HU2. simpl fw.
  destruct (Nat.eqb_spec j k) as [->|]; ring.
Qed.

(** At zero prices. *)
Lemma flat2_hessian c j k l : (j < 2)%nat -> (k < 2)%nat -> (l < 2)%nat ->
  shares_hessian (flat_market 2 c) (fun _ => 0) j k l
  = let d := fun a b : nat => if Nat.eqb a b then / 3 else 0 in
    c k * c l * ((if Nat.eqb j k then d j l - / 9 else 0) - / 3 * (d j l - / 9) - / 3 * (d k l - / 9)).
Proof.
  intros Hj Hk Hl. unfold shares_hessian, hessian_of, capital_lamda_tensor, capital_gamma_tensor,
    probability_utility_second_derivatives, probability_derivatives.
  assert (HPj := flat_prob 2 c 0 j Hj). assert (HPk := flat_prob 2 c 0 k Hk). assert (HPl := flat_prob 2 c 0 l Hl).
  assert (HU := flat_derivative 2 c (fun _ => 0) 0).
  assert (HU2 : forall a, utility_derivatives (flat_market 2 c) true (fun _ => 0) 0 a = 0).
  { intros a. unfold utility_derivatives; simpl. destruct (Req_EM_T 1 1); field. }
  set (P := probs _ _ _) in *. set (U := utility_derivatives _ false _) in *.
  set (U2 := utility_derivatives _ true _) in *. clearbody P U U2.
  change (fI (flat_market 2 c)) with 1%nat. change (mH (fm (flat_market 2 c)) =? 0)%nat with true.
  cbn [sumn]. cbv iota zeta. rewrite HPj, HPk, HPl, !HU, !HU2. simpl fw. simpl INR.
  clear HPj HPk HPl HU HU2.
  destruct j as [|[|]]; [| |lia]; destruct k as [|[|]]; [| |lia| | |lia]; destruct l as [|[|]]; try lia; cbn [Nat.eqb]; field.
Qed.

(** Prices (y, 0) are an equilibrium of the two-product monopolist at these costs. *)
Definition bad_prices (y : R) (j : nat) : R := if Nat.eqb j 0 then y else 0.
Definition bad_costs (y : R) (j : nat) : R := bad_prices y j - / twice j - (exp (- y) + / 2).

Lemma bad_equilibrium y : bertrand 2 (fun _ _ => 1) (bad_costs y) (shares_at (flat_market 2 twice)) (bad_prices y).
Proof.
  apply (bertrand_iff_markup (flat_market 2 twice) (fun _ _ => 1) (bad_costs y) (bad_prices y));
    [apply flat_valid; lia|apply flat_good|reflexivity|].
  intros j Hj. change (mJ (fm (flat_market 2 twice))) with 2%nat in *.
  cbn [sumn]. rewrite flat2_shares by assumption.
  rewrite !(flat2_jacobian twice (bad_prices y)) by lia. cbv zeta.
  unfold bad_costs, bad_prices, twice.
  destruct j as [|[|]]; [| |lia]; cbn [Nat.eqb].
  all: replace (- (2 * 0)) with 0 by ring; rewrite exp_0; replace (- (1 * y)) with (- y) by ring.
  all: assert (H := exp_pos (- y)); field; lra.
Qed.

Lemma bad_path : equilibrium_path 2 (fun _ _ => 1) (shares_at (flat_market 2 twice)) bad_prices bad_costs 0
  (fun j => if Nat.eqb j 0 then 1 else 0) (fun j => if Nat.eqb j 0 then 2 else 1).
Proof.
  assert (DE : derivable_pt_lim (fun y => exp (- y)) 0 (- (1))).
  { eapply dlim_eq; [|apply dlim_exp, dlim_opp, dlim_id]. cbv beta. rewrite Ropp_0, exp_0. ring. }
  assert (DP : forall j, derivable_pt_lim (fun y => bad_prices y j) 0 (if Nat.eqb j 0 then 1 else 0)).
  { intros j. unfold bad_prices. destruct (Nat.eqb j 0); [apply dlim_id|apply dlim_const]. }
  constructor.
  - intros j Hj. apply DP.
  - intros j Hj. unfold bad_costs.
    eapply dlim_eq; [|apply dlim_minus; [apply dlim_minus; [apply DP|apply dlim_const]|apply dlim_plus; [apply DE|apply dlim_const]]].
    destruct (Nat.eqb j 0); ring.
  - exists 1. split; [lra|]. intros y _. apply bad_equilibrium.
Qed.

Lemma flat_twice_differentiable J c x : twice_differentiable (flat_market J c) x.
Proof. split; intros k j Hu Hk Hj; [cbn; apply dlim_const|cbn in Hk; lia]. Qed.

Lemma flat2_capital c j k : (j < 2)%nat -> (k < 2)%nat ->
  passthrough_capital_delta (flat_market 2 c) (fun _ _ => 1) j k = c k * ((if Nat.eqb j k then / 3 else 0) - / 9).
Proof.
  intros Hj Hk. unfold passthrough_capital_delta. change (var0 (flat_market 2 c)) with (fun _ : nat => 0).
  rewrite flat_jacobian by assumption. simpl INR. destruct (Nat.eqb_spec j k) as [->|]; field.
Qed.

Lemma passthrough_refuted :
  exists invert M O,
    valid_market (fm M) /\ (forall x, good_columns M x) /\ (forall x, twice_differentiable M x) /\ exact_inverter (mJ (fm M)) invert /\
    (forall j k, O j k = 1) /\
    let X := compute_passthrough invert M O (shares_at M (var0 M)) in
    pt_intra_firm_error X = false /\ pt_inversion_error X = false /\
    ~ is_passthrough (mJ (fm M)) O (shares_at M) (var0 M) (pt_matrix X).
Proof.
  exists two_inverter, (flat_market 2 twice), (fun _ _ => 1).
  split; [apply flat_valid; lia|]. split; [apply flat_good|]. split; [apply flat_twice_differentiable|].
  split; [apply two_inverter_exact|]. split; [reflexivity|].
  set (M := flat_market 2 twice).
  assert (HC : forall j k, (j < 2)%nat -> (k < 2)%nat -> passthrough_capital_delta M (fun _ _ => 1) j k
     = twice k * ((if Nat.eqb j k then / 3 else 0) - / 9)) by (intros; apply flat2_capital; assumption).
  assert (HH : forall l j k, (j < 2)%nat -> (k < 2)%nat -> (l < 2)%nat ->
     passthrough_capital_delta_derivatives M (fun _ _ => 1) l j k
     = - (let d := fun a b : nat => if Nat.eqb a b then / 3 else 0 in
    twice k * twice l * ((if Nat.eqb j k then d j l - / 9 else 0) - / 3 * (d j l - / 9) - / 3 * (d k l - / 9)))).
  { intros l j k Hj Hk Hl. unfold passthrough_capital_delta_derivatives.
    change (var0 M) with (fun _ : nat => 0). unfold M. rewrite flat2_hessian by assumption. cbv zeta. rewrite Ropp_mult_distr_l_reverse, Rmult_1_l. reflexivity. }
  assert (HS : forall j, (j < 2)%nat -> shares_at M (var0 M) j = / 3).
  { intros j Hj. change (var0 M) with (fun _ : nat => 0). unfold M. rewrite flat_shares by assumption. simpl. field. }
  assert (HJ : forall j k, (j < 2)%nat -> (k < 2)%nat -> shares_jacobian M (var0 M) j k
     = - twice k * ((if Nat.eqb j k then / 3 else 0) - / 9)).
  { intros j k Hj Hk. change (var0 M) with (fun _ : nat => 0). unfold M. rewrite flat_jacobian by assumption.
    simpl INR. destruct (Nat.eqb_spec j k) as [->|]; field. }
  cbv zeta. unfold compute_passthrough.
  set (X := two_inverter (passthrough_capital_delta M (fun _ _ => 1))).
  assert (EX : snd X = false /\
    (forall j k, (j < 2)%nat -> (k < 2)%nat -> fst X j k = / twice j * ((if Nat.eqb j k then 3 else 0) + 3))).
  { unfold X, two_inverter. cbn [fst snd]. rewrite !HC by lia. unfold twice. cbn [Nat.eqb].
    split; [destruct (Req_EM_T _ 0); [exfalso; lra|reflexivity]|].
    intros j k Hj Hk. destruct j as [|[|]]; [| |lia]; destruct k as [|[|]]; [| |lia| | |lia]; cbn [Nat.eqb];
      rewrite ?HC by lia; unfold twice; cbn [Nat.eqb]; field. }
  destruct X as [inv bad1]. cbn [fst snd] in EX. destruct EX as [-> EI].
  set (Y := two_inverter _).
  assert (EP : forall a l, (a < 2)%nat -> (l < 2)%nat ->
    passthrough_inverse M (fun _ _ => 1) inv (shares_at M (var0 M)) a l
    = if Nat.eqb a l then 2 else if Nat.eqb a 0 then 2 else / 2).
  { intros a l Ha Hl. unfold passthrough_inverse, matvec, matmul. cbv zeta.
    change (mJ (fm M)) with 2%nat. cbn [sumn].
    rewrite !HS, !HJ, !HH, !EI by lia. unfold twice.
    destruct a as [|[|]]; [| |lia]; destruct l as [|[|]]; [| |lia| | |lia]; cbn [Nat.eqb]; field. }
  assert (EY : snd Y = false /\ fst Y O O = 2 / 3 /\ fst Y O 1%nat = - (2 / 3) /\ fst Y 1%nat O = - / 6 /\ fst Y 1%nat 1%nat = 2 / 3).
  { unfold Y, two_inverter. cbn [fst snd Nat.eqb]. rewrite !EP by lia. cbn [Nat.eqb].
    split; [destruct (Req_EM_T _ 0); [exfalso; lra|reflexivity]|]. repeat split; field. }
  destruct Y as [pt bad2]. cbn [fst snd] in EY. destruct EY as [-> [E00 [E01 _]]].
  cbn [pt_intra_firm_error pt_inversion_error pt_matrix]. split; [reflexivity|]. split; [reflexivity|].
  intros H. specialize (H bad_prices bad_costs 0 _ _ bad_path).
  assert (Hp : bad_prices 0 = var0 M).
  { apply functional_extensionality; intros j. unfold bad_prices. cbn. destruct (Nat.eqb j 0); reflexivity. }
  specialize (H Hp O ltac:(cbn; lia)). change (mJ (fm M)) with 2%nat in H. cbn [sumn Nat.eqb] in H.
  rewrite E00, E01 in H. lra.
Qed.

Lemma flat2_no_errors :
  let M := flat_market 2 (fun _ => 1) in
  let X := compute_passthrough two_inverter M (fun _ _ => 1) (shares_at M (var0 M)) in
  valid_market (fm M) /\ (forall x, good_columns M x) /\ (forall x, twice_differentiable M x) /\ exact_inverter (mJ (fm M)) two_inverter /\
  (forall x i a b, utility_derivatives M false x i a = utility_derivatives M false x i b) /\
  pt_intra_firm_error X = false /\ pt_inversion_error X = false.
Proof.
  cbv zeta.
  split; [apply flat_valid; lia|]. split; [apply flat_good|]. split; [apply flat_twice_differentiable|].
  split; [apply two_inverter_exact|]. split; [intros; rewrite !flat_derivative; reflexivity|].
  set (M := flat_market 2 (fun _ => 1)).
  assert (HC : forall j k, (j < 2)%nat -> (k < 2)%nat -> passthrough_capital_delta M (fun _ _ => 1) j k
     = 1 * ((if Nat.eqb j k then / 3 else 0) - / 9)) by (intros j k Hj Hk; exact (flat2_capital (fun _ => 1) j k Hj Hk)).
  assert (HH : forall l j k, (j < 2)%nat -> (k < 2)%nat -> (l < 2)%nat ->
     passthrough_capital_delta_derivatives M (fun _ _ => 1) l j k
     = - (let d := fun a b : nat => if Nat.eqb a b then / 3 else 0 in
    1 * 1 * ((if Nat.eqb j k then d j l - / 9 else 0) - / 3 * (d j l - / 9) - / 3 * (d k l - / 9)))).
  { intros l j k Hj Hk Hl. unfold passthrough_capital_delta_derivatives.
    change (var0 M) with (fun _ : nat => 0). unfold M. rewrite flat2_hessian by assumption.
    cbv zeta. rewrite Ropp_mult_distr_l_reverse, Rmult_1_l. reflexivity. }
  assert (HS : forall j, (j < 2)%nat -> shares_at M (var0 M) j = / 3).
  { intros j Hj. change (var0 M) with (fun _ : nat => 0). unfold M. rewrite flat_shares by assumption. simpl. field. }
  assert (HJ : forall j k, (j < 2)%nat -> (k < 2)%nat -> shares_jacobian M (var0 M) j k
     = - 1 * ((if Nat.eqb j k then / 3 else 0) - / 9)).
  { intros j k Hj Hk. change (var0 M) with (fun _ : nat => 0). unfold M. rewrite flat_jacobian by assumption.
    simpl INR. destruct (Nat.eqb_spec j k) as [->|]; field. }
  unfold compute_passthrough.
  set (X := two_inverter (passthrough_capital_delta M (fun _ _ => 1))).
  assert (EX : snd X = false /\
    (forall j k, (j < 2)%nat -> (k < 2)%nat -> fst X j k = (if Nat.eqb j k then 3 else 0) + 3)).
  { unfold X, two_inverter. cbn [fst snd]. rewrite !HC by lia. cbn [Nat.eqb].
    split; [destruct (Req_EM_T _ 0); [exfalso; lra|reflexivity]|].
    intros j k Hj Hk. destruct j as [|[|]]; [| |lia]; destruct k as [|[|]]; [| |lia| | |lia]; cbn [Nat.eqb];
      rewrite ?HC by lia; cbn [Nat.eqb]; field. }
  destruct X as [inv bad1]. cbn [fst snd] in EX. destruct EX as [-> EI].
  set (Y := two_inverter _).
  assert (EP : forall a l, (a < 2)%nat -> (l < 2)%nat ->
    passthrough_inverse M (fun _ _ => 1) inv (shares_at M (var0 M)) a l = if Nat.eqb a l then 2 else 1).
  { intros a l Ha Hl. unfold passthrough_inverse, matvec, matmul. cbv zeta.
    change (mJ (fm M)) with 2%nat. cbn [sumn].
    rewrite !HS, !HJ, !HH, !EI by lia.
    destruct a as [|[|]]; [| |lia]; destruct l as [|[|]]; [| |lia| | |lia]; cbn [Nat.eqb]; field. }
  assert (EY : snd Y = false).
  { unfold Y, two_inverter. cbn [fst snd Nat.eqb]. rewrite !EP by lia. cbn [Nat.eqb].
    destruct (Req_EM_T _ 0); [exfalso; lra|reflexivity]. }
  destruct Y as [pt bad2]. cbn [snd] in EY. subst bad2. split; reflexivity.
Qed.
