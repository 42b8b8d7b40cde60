(** Lemmas about DerivModel: analytic derivatives are the derivatives. *)
From Coq Require Import Reals Lra Lia List Bool Arith.
From Verif Require Import Base DemandSpec DemandModel DemandProofs DemandShares DemandDeriv
  SupplyModel SupplySpec SupplyProofs DerivModel.
Local Open Scope R_scope.

Lemma rho_lt m j : valid_market m -> mH m <> O -> (j < mJ m)%nat -> rho m j < 1.
Proof. intros V HH Hj. unfold rho. apply (vm_rho _ V HH). apply (vm_gid _ V HH); assumption. Qed.

(** Slope of a conditional probability. *)
Definition cond_slope (m : market) (C v : nat -> R) (j : nat) : R :=
  C j * (v j - sumn (mJ m) (fun k => membership m j k * (C k * v k))) / (1 - rho m j).

Lemma cond_derive m safe (delta mu : R -> nat -> R) t v j :
  valid_market m -> mH m <> O -> (j < mJ m)%nat ->
  (forall k, (k < mJ m)%nat -> derivable_pt_lim (fun y => utility m (delta y) (mu y) k) t (v k)) ->
  derivable_pt_lim (fun y => cond_of (probabilities_linear m full_choice safe (delta y) (mu y)) j) t
    (cond_slope m (cond_of (probabilities_linear m full_choice safe (delta t) (mu t))) v j).
Proof.
  intros V HH Hj DV.
  apply dlim_ext with (fun y => within_group (mJ m) (gid m) (grho m) all_goods
                                  (fun k => utility m (delta y) (mu y) k) j).
  { intros y. rewrite cond_spec by assumption. reflexivity. }
  eapply dlim_eq; [|apply (dlim_within_fixed (mJ m) (mH m) (gid m) all_goods
      (fun k y => utility m (delta y) (mu y) k) (grho m) t v)].
  - unfold cond_slope. rewrite (cond_spec m safe (delta t) (mu t) j) by assumption.
    f_equal. f_equal. f_equal. unfold avg_group. apply sumn_ext; intros k Hk.
    rewrite cond_spec by assumption. unfold membership. rewrite Nat.eqb_sym.
    destruct (Nat.eqb (gid m j) (gid m k)); [rewrite Rmult_1_l; reflexivity|ring].
  - intros k Hk. apply (vm_gid _ V HH); assumption.
  - intros h Hh. apply (vm_rho _ V HH); assumption.
  - exact DV.
  - assumption.
Qed.

Lemma cond_slope_ext m C v C' j :
  (j < mJ m)%nat -> (forall k, (k < mJ m)%nat -> C k = C' k) -> cond_slope m C v j = cond_slope m C' v j.
Proof.
  intros Hj EC. unfold cond_slope. rewrite (EC j Hj).
  rewrite (sumn_ext _ (fun k => membership m j k * (C k * v k)) (fun k => membership m j k * (C' k * v k)))
    by (intros k Hk; rewrite (EC k Hk); reflexivity).
  reflexivity.
Qed.

Lemma cond_slope_single m C c l j :
  (l < mJ m)%nat ->
  cond_slope m C (fun k => if Nat.eqb k l then c else 0) j
  = C j * ((if Nat.eqb j l then c else 0) - membership m j l * (C l * c)) / (1 - rho m j).
Proof.
  intros Hl. unfold cond_slope. f_equal. f_equal. f_equal.
  rewrite (sumn_ext (mJ m) (fun k => membership m j k * (C k * (if Nat.eqb k l then c else 0)))
             (fun k => if Nat.eqb k l then membership m j k * (C k * c) else 0))
    by (intros k _; destruct (Nat.eqb k l); ring).
  apply (sumn_delta (mJ m) l (fun k => membership m j k * (C k * c)) Hl).
Qed.

Lemma single_fun (U : nat -> R) l : forall k, (if Nat.eqb k l then U k else 0) = (if Nat.eqb k l then U l else 0).
Proof. intros k. destruct (Nat.eqb_spec k l); subst; reflexivity. Qed.

Lemma prob_slope_v m P C v v' j :
  (forall k, v k = v' k) -> prob_slope m P C v j = prob_slope m P C v' j.
Proof.
  intros E. unfold prob_slope. rewrite (E j).
  rewrite (sumn_ext _ (fun k => P k * v k) (fun k => P k * v' k)) by (intros; rewrite E; reflexivity).
  rewrite (sumn_ext _ (fun k => membership m j k * (C k * v k)) (fun k => membership m j k * (C k * v' k)))
    by (intros; rewrite E; reflexivity).
  reflexivity.
Qed.

Lemma membership_rho m j l : membership m j l <> 0 -> rho m j = rho m l.
Proof.
  unfold membership, rho. destruct (Nat.eqb_spec (gid m j) (gid m l)) as [E|E]; [rewrite E; reflexivity|].
  intros H; contradiction.
Qed.

(** ** Second derivatives *)
Section Hessian.
  Variables (M : full_market) (x : nat -> R).
  Hypothesis V : valid_market (fm M).
  Hypothesis G : good_columns M x.
  (** dv2 is the derivative of dv1. *)
  Hypothesis G2 :
    (forall k j, uses (fX1 M k) = true -> (k < fK1 M)%nat -> (j < mJ (fm M))%nat ->
       derivable_pt_lim (dv1 (fX1 M k) j) (x j) (dv2 (fX1 M k) j (x j))) /\
    (forall k j, uses (fX2 M k) = true -> (k < fK2 M)%nat -> (j < mJ (fm M))%nat ->
       derivable_pt_lim (dv1 (fX2 M k) j) (x j) (dv2 (fX2 M k) j (x j))).
  Let P := probs (fm M) (update_delta M x) (update_mu M x).
  Let C := conds (fm M) (update_delta M x) (update_mu M x).
  Let U := utility_derivatives M false x.
  Let U2 := utility_derivatives M true x.

  Lemma probs_var_derive l i j : (j < mJ (fm M))%nat -> (l < mJ (fm M))%nat ->
    derivable_pt_lim (fun t => probs (fm M) (update_delta M (upd x l t)) (update_mu M (upd x l t)) i j) (x l)
      (probability_derivatives (fm M) P C U l i j).
  Proof.
    intros Hj Hl. eapply dlim_eq; [|apply prob_derive_var; assumption].
    rewrite (prob_slope_v _ _ _ _ (fun k => if Nat.eqb k l then U i l else 0))
      by (intros k; apply (single_fun (U i) l k)).
    assert (E := prob_slope_single (fm M) true (update_delta M x) (update_mu M x i) (U i l) l j V Hj Hl).
    cbv zeta in E. unfold P, C in *.
    change (fst (probabilities_linear (fm M) full_choice true (update_delta M x) (update_mu M x i)))
      with (probs (fm M) (update_delta M x) (update_mu M x) i) in E.
    change (cond_of (probabilities_linear (fm M) full_choice true (update_delta M x) (update_mu M x i)))
      with (conds (fm M) (update_delta M x) (update_mu M x) i) in E.
    rewrite E. unfold probability_derivatives. fold P C.
    destruct (Nat.eqb_spec (mH (fm M)) 0) as [HH|HH]; destruct (Nat.eqb_spec j l) as [->|Hne]; unfold Rdiv; ring.
  Qed.

  Lemma conds_var_derive l i j : mH (fm M) <> O -> (j < mJ (fm M))%nat -> (l < mJ (fm M))%nat ->
    derivable_pt_lim (fun t => conds (fm M) (update_delta M (upd x l t)) (update_mu M (upd x l t)) i j) (x l)
      (conditional_derivatives (fm M) C U l i j).
  Proof.
    intros HH Hj Hl.
    eapply dlim_eq; [|apply (cond_derive (fm M) true (fun t => update_delta M (upd x l t))
       (fun t => update_mu M (upd x l t) i) (x l)
       (fun k => if Nat.eqb k l then U i k else 0) j V HH Hj)].
    - rewrite (cond_slope_ext (fm M) _ _ (C i)).
      2: assumption.
      2:{ intros k Hk. unfold C. rewrite conds_cond. apply cond_ext; try assumption. intros; apply utility_upd_same. }
      transitivity (cond_slope (fm M) (C i) (fun k => if Nat.eqb k l then U i l else 0) j).
      { unfold cond_slope. rewrite (single_fun (U i) l j).
        rewrite (sumn_ext (mJ (fm M)) (fun k => membership (fm M) j k * (C i k * (if Nat.eqb k l then U i k else 0)))
           (fun k => membership (fm M) j k * (C i k * (if Nat.eqb k l then U i l else 0))))
          by (intros; rewrite (single_fun (U i) l); reflexivity).
        reflexivity. }
      rewrite cond_slope_single by assumption. unfold conditional_derivatives.
      assert (Hr := rho_lt _ _ V HH Hj). assert (Hrl := rho_lt _ _ V HH Hl).
      destruct (Req_EM_T (membership (fm M) j l) 0) as [E0|E0].
      + rewrite E0. destruct (Nat.eqb_spec j l) as [->|Hne].
        * exfalso. unfold membership in E0. rewrite Nat.eqb_refl in E0. lra.
        * unfold Rdiv. ring.
      + rewrite (membership_rho _ _ _ E0). destruct (Nat.eqb_spec j l) as [->|Hne]; field; lra.
    - intros k Hk. apply utility_curve; assumption.
  Qed.

  Lemma utility_derivatives_derive l i k : (k < mJ (fm M))%nat ->
    derivable_pt_lim (fun t => utility_derivatives M false (upd x l t) i k) (x l)
      (if Nat.eqb k l then U2 i l else 0).
  Proof.
    intros Hk. destruct G2 as [A B].
    destruct (Nat.eqb_spec k l) as [->|Hne].
    - unfold U2. unfold utility_derivatives.
      assert (D : derivable_pt_lim (fun t =>
         sumn (fK1 M) (fun k => (if uses (fX1 M k) then dv1 (fX1 M k) l (upd x l t l) else 0) * fbeta M k)
         + sumn (fK2 M) (fun k => (if uses (fX2 M k) then dv1 (fX2 M k) l (upd x l t l) else 0) * fcoef M k l i))
         (x l)
         (sumn (fK1 M) (fun k => (if uses (fX1 M k) then dv2 (fX1 M k) l (x l) else 0) * fbeta M k)
         + sumn (fK2 M) (fun k => (if uses (fX2 M k) then dv2 (fX2 M k) l (x l) else 0) * fcoef M k l i))).
      { apply dlim_plus.
        - apply (dlim_sumn (fK1 M) (fun k t => (if uses (fX1 M k) then dv1 (fX1 M k) l (upd x l t l) else 0) * fbeta M k)).
          intros c Hc. apply (dlim_scal_r (fbeta M c) (fun t => if uses (fX1 M c) then dv1 (fX1 M c) l (upd x l t l) else 0)).
          destruct (uses (fX1 M c)) eqn:E; [|apply dlim_const].
          apply dlim_ext with (dv1 (fX1 M c) l); [|apply A; assumption].
          intros y; unfold upd; rewrite Nat.eqb_refl; reflexivity.
        - apply (dlim_sumn (fK2 M) (fun k t => (if uses (fX2 M k) then dv1 (fX2 M k) l (upd x l t l) else 0) * fcoef M k l i)).
          intros c Hc. apply (dlim_scal_r (fcoef M c l i) (fun t => if uses (fX2 M c) then dv1 (fX2 M c) l (upd x l t l) else 0)).
          destruct (uses (fX2 M c)) eqn:E; [|apply dlim_const].
          apply dlim_ext with (dv1 (fX2 M c) l); [|apply B; assumption].
          intros y; unfold upd; rewrite Nat.eqb_refl; reflexivity. }
      destruct (Req_EM_T (eps_scale (fm M)) 1); [exact D|].
      exact (dlim_scal_r (/ eps_scale (fm M)) _ _ _ D).
    - apply dlim_ext with (fun _ => utility_derivatives M false x i k); [|apply dlim_const].
      intros y. unfold utility_derivatives, upd. apply Nat.eqb_neq in Hne. rewrite Hne. reflexivity.
  Qed.

  (** Evaluating at [upd x l (x l)] is evaluating at x. *)
  Lemma P_same l i j : (j < mJ (fm M))%nat ->
    probs (fm M) (update_delta M (upd x l (x l))) (update_mu M (upd x l (x l))) i j = P i j.
  Proof. intros Hj. apply probabilities_ext; try assumption. intros; apply utility_upd_same. Qed.
  Lemma C_same l i j : (j < mJ (fm M))%nat ->
    conds (fm M) (update_delta M (upd x l (x l))) (update_mu M (upd x l (x l))) i j = C i j.
  Proof.
    intros Hj. unfold C. rewrite !conds_cond. apply cond_ext; try assumption. intros; apply utility_upd_same.
  Qed.
  Lemma U_same l i j : utility_derivatives M false (upd x l (x l)) i j = U i j.
  Proof. unfold U, utility_derivatives. rewrite upd_same. reflexivity. Qed.

  Lemma PU_derive l i k : (k < mJ (fm M))%nat -> (l < mJ (fm M))%nat ->
    derivable_pt_lim (fun t => probs (fm M) (update_delta M (upd x l t)) (update_mu M (upd x l t)) i k
                               * utility_derivatives M false (upd x l t) i k) (x l)
      (probability_utility_second_derivatives (fm M) P C U U2 l i k).
  Proof.
    intros Hk Hl. eapply dlim_eq; [|apply dlim_mult; [apply probs_var_derive; assumption|apply utility_derivatives_derive; assumption]].
    cbv beta. rewrite P_same, U_same by assumption. unfold probability_utility_second_derivatives.
    destruct (Nat.eqb_spec k l) as [->|Hne]; ring.
  Qed.

  Lemma lamda_derive j l : (j < mJ (fm M))%nat -> (l < mJ (fm M))%nat ->
    derivable_pt_lim (fun t => lamda_at M (upd x l t) j) (x l)
      (capital_lamda_tensor (fm M) (fI M) (fw M) P C U U2 j l).
  Proof.
    intros Hj Hl. unfold lamda_at, capital_lamda, capital_lamda_tensor.
    assert (D : derivable_pt_lim (fun t => sumn (fI M) (fun i =>
        probs (fm M) (update_delta M (upd x l t)) (update_mu M (upd x l t)) i j
        * utility_derivatives M false (upd x l t) i j * fw M i)) (x l)
        (sumn (fI M) (fun i => probability_utility_second_derivatives (fm M) P C U U2 l i j * fw M i))).
    { apply (dlim_sumn (fI M) (fun i t => probs (fm M) (update_delta M (upd x l t)) (update_mu M (upd x l t)) i j
        * utility_derivatives M false (upd x l t) i j * fw M i)).
      intros i Hi. apply (dlim_scal_r (fw M i)). apply PU_derive; assumption. }
    destruct (Nat.eqb (mH (fm M)) 0); [exact D|]. exact (dlim_scal_r (/ (1 - rho (fm M) j)) _ _ _ D).
  Qed.

  Lemma gamma_derive j k l : (j < mJ (fm M))%nat -> (k < mJ (fm M))%nat -> (l < mJ (fm M))%nat ->
    derivable_pt_lim (fun t => gamma_at M (upd x l t) j k) (x l)
      (capital_gamma_tensor (fm M) (fI M) (fw M) P C U U2 j k l).
  Proof.
    intros Hj Hk Hl. unfold gamma_at, capital_gamma, capital_gamma_tensor.
    set (Pt := fun t => probs (fm M) (update_delta M (upd x l t)) (update_mu M (upd x l t))).
    set (Ct := fun t => conds (fm M) (update_delta M (upd x l t)) (update_mu M (upd x l t))).
    set (Ut := fun t => utility_derivatives M false (upd x l t)).
    assert (DX : forall (X : R -> nat -> nat -> R) dX X0,
      (forall i, (i < fI M)%nat -> derivable_pt_lim (fun t => X t i j) (x l) (dX i)) ->
      (forall i, X (x l) i j = X0 i j) ->
      derivable_pt_lim (fun t => sumn (fI M) (fun i => X t i j * (fw M i * (Pt t i k * Ut t i k)))) (x l)
        (sumn (fI M) (fun i => dX i * (fw M i * (P i k * U i k)))
         + sumn (fI M) (fun i => X0 i j * (fw M i * probability_utility_second_derivatives (fm M) P C U U2 l i k)))).
    { intros X dX X0 HX H0. rewrite <- sumn_plus.
      apply (dlim_sumn (fI M) (fun i t => X t i j * (fw M i * (Pt t i k * Ut t i k)))).
      intros i Hi.
      eapply dlim_eq; [|apply (dlim_mult (fun t => X t i j) (fun t => fw M i * (Pt t i k * Ut t i k)));
        [apply HX; assumption | apply dlim_scal; apply PU_derive; assumption]].
      cbv beta. unfold Pt, Ut. rewrite P_same, U_same, H0 by assumption. reflexivity. }
    assert (D1 := DX Pt (fun i => probability_derivatives (fm M) P C U l i j) P
      (fun i _ => probs_var_derive l i j Hj Hl) (fun i => P_same l i j Hj)).
    destruct (Nat.eqb_spec (mH (fm M)) 0) as [HH|HH]; [exact D1|].
    assert (D2 := DX Ct (fun i => conditional_derivatives (fm M) C U l i j) C
      (fun i _ => conds_var_derive l i j HH Hj Hl) (fun i => C_same l i j Hj)).
    apply dlim_plus; [exact D1|]. apply dlim_scal. exact D2.
  Qed.

  Lemma hessian_derive j k l : (j < mJ (fm M))%nat -> (k < mJ (fm M))%nat -> (l < mJ (fm M))%nat ->
    derivable_pt_lim (fun t => shares_jacobian M (upd x l t) j k) (x l) (shares_hessian M x j k l).
  Proof.
    intros Hj Hk Hl. unfold shares_jacobian, jacobian_of, shares_hessian, hessian_of.
    apply dlim_minus.
    - destruct (Nat.eqb j k); [apply (lamda_derive j l Hj Hl)|apply dlim_const].
    - apply (gamma_derive j k l Hj Hk Hl).
  Qed.

  Lemma profit_hessian_derive costs j k l :
    (j < mJ (fm M))%nat -> (k < mJ (fm M))%nat -> (l < mJ (fm M))%nat ->
    derivable_pt_lim (fun t => profit_jacobian M costs (upd x l t) j k) (x l) (profit_hessian M costs x j k l).
  Proof.
    intros Hj Hk Hl. unfold profit_jacobian, profit_hessian.
    apply dlim_eq with ((if Nat.eqb j k then shares_jacobian M x j l else 0)
      + (((if Nat.eqb j l then 1 else 0) - 0) * shares_jacobian M (upd x l (x l)) j k
         + (upd x l (x l) j - costs j) * shares_hessian M x j k l)).
    - rewrite upd_same.
      assert (E : shares_jacobian M (upd x l (x l)) j k = shares_jacobian M x j k).
      { unfold shares_jacobian. apply jacobian_of_ext. intros i a Hi Ha.
        assert (Ha' : (a < mJ (fm M))%nat) by (destruct Ha; subst; assumption).
        repeat split; [apply P_same|apply C_same|apply U_same]; assumption. }
      rewrite E. destruct (Nat.eqb j l); ring.
    - apply dlim_plus.
      + destruct (Nat.eqb j k); [apply jacobian_is_derivative; assumption|apply dlim_const].
      + apply (dlim_mult (fun t => upd x l t j - costs j) (fun t => shares_jacobian M (upd x l t) j k)).
        * apply dlim_minus; [apply upd_derive|apply dlim_const].
        * apply hessian_derive; assumption.
  Qed.
End Hessian.
