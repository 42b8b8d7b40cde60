(** Composition of the derivative lemmas into statements about the code, and witnesses. *)
From Coq Require Import Reals Lra Lia List Bool Arith FunctionalExtensionality.
From Verif Require Import Base DemandSpec DemandModel DemandProofs DemandShares DemandElim DemandDeriv
  SupplyModel SupplySpec SupplyProofs DerivModel DerivProofs DerivCurve DerivParam.
Local Open Scope R_scope.

(** Second derivatives of columns are right at the values x. *)
Definition twice_differentiable (M : full_market) (x : nat -> R) : Prop :=
  (forall k j, uses (fX1 M k) = true -> (k < fK1 M)%nat -> (j < mJ (fm M))%nat ->
     derivable_pt_lim (dv1 (fX1 M k) j) (x j) (dv2 (fX1 M k) j (x j))) /\
  (forall k j, uses (fX2 M k) = true -> (k < fK2 M)%nat -> (j < mJ (fm M))%nat ->
     derivable_pt_lim (dv1 (fX2 M k) j) (x j) (dv2 (fX2 M k) j (x j))).

(** Values near x. *)
Definition near (J : nat) (e : R) (x y : nat -> R) : Prop := forall j, (j < J)%nat -> Rabs (y j - x j) < e.

Lemma near_upd J e x l t : 0 < e -> Rabs (t - x l) < e -> near J e x (upd x l t).
Proof.
  intros He Ht j Hj. unfold upd. destruct (Nat.eqb_spec j l) as [->|Hne]; [assumption|].
  replace (x j - x j) with 0 by ring. rewrite Rabs_R0. assumption.
Qed.
Lemma near_self J e x : 0 < e -> near J e x x.
Proof. intros He j Hj. replace (x j - x j) with 0 by ring. rewrite Rabs_R0. assumption. Qed.

Lemma hessian_exact M D x e j k l :
  valid_market (fm M) -> 0 < e -> (forall y, near (mJ (fm M)) e x y -> good_columns M y) -> twice_differentiable M x ->
  (forall y, near (mJ (fm M)) e x y -> is_jacobian (mJ (fm M)) (shares_at M) y (D y)) ->
  (j < mJ (fm M))%nat -> (k < mJ (fm M))%nat -> (l < mJ (fm M))%nat ->
  derivable_pt_lim (fun t => D (upd x l t) j k) (x l) (shares_hessian M x j k l).
Proof.
  intros V He G G2 HD Hj Hk Hl.
  apply dlim_ext_near with (fun t => shares_jacobian M (upd x l t) j k) e; [assumption| |
    apply hessian_derive; try assumption; apply G, near_self; assumption].
  intros t Ht. assert (N := near_upd (mJ (fm M)) e x l t He Ht).
  eapply dlim_unique; [apply jacobian_is_derivative; auto|apply HD; assumption].
Qed.

(** Variable profit per product. *)
Definition profit (s : (nat -> R) -> nat -> R) (costs p : nat -> R) (j : nat) : R := (p j - costs j) * s p j.

Lemma profit_hessian_exact M costs D x e j k l :
  valid_market (fm M) -> 0 < e -> (forall y, near (mJ (fm M)) e x y -> good_columns M y) -> twice_differentiable M x ->
  (forall y, near (mJ (fm M)) e x y -> is_jacobian (mJ (fm M)) (profit (shares_at M) costs) y (D y)) ->
  (j < mJ (fm M))%nat -> (k < mJ (fm M))%nat -> (l < mJ (fm M))%nat ->
  derivable_pt_lim (fun t => D (upd x l t) j k) (x l) (profit_hessian M costs x j k l).
Proof.
  intros V He G G2 HD Hj Hk Hl.
  apply dlim_ext_near with (fun t => profit_jacobian M costs (upd x l t) j k) e; [assumption| |
    apply profit_hessian_derive; try assumption; apply G, near_self; assumption].
  intros t Ht. assert (N := near_upd (mJ (fm M)) e x l t He Ht).
  eapply dlim_unique; [apply profit_jacobian_derivative; auto|apply HD; assumption].
Qed.

Lemma xi_jacobian_exact m a delta observed :
  valid_market m ->
  (forall j, (j < mJ m)%nat -> observed j = market_shares m a true delta j) ->
  is_jacobian (mJ m) (market_shares m a true) delta
    (shares_by_xi_jacobian m (aI a) (aw a) observed (probs m delta (amu a)) (conds m delta (amu a))).
Proof.
  intros V Ho j k Hj Hk. rewrite (xi_jacobian_is_jacobian m V); [|apply Ho; assumption|auto].
  apply shares_by_delta; assumption.
Qed.

(** The Jacobian of the contraction when epsilon is scaled, without nesting. *)
Lemma contraction_eps_refuted :
  exists m a shares x j k,
    valid_market m /\ valid_agents a /\ (j < mJ m)%nat /\ (k < mJ m)%nat /\
    (forall j, (j < mJ m)%nat -> shares j = market_shares m a true x j) /\
    ~ derivable_pt_lim (fun t => contraction m a true (None, None) shares (upd x k t) j) (x k)
        (contraction_jacobian m (aI a) (aw a) (probs m x (amu a)) (conds m x (amu a)) j k).
Proof.
  exists eps_market, eps_agents, (market_shares eps_market eps_agents true (fun _ => 0)), (fun _ => 0), O, O.
  split; [apply eps_market_valid|]. split; [apply eps_agents_valid|]. cbn [mJ eps_market].
  split; [lia|]. split; [lia|]. split; [reflexivity|]. intros D.
  assert (HP : probs eps_market (fun _ => 0) (amu eps_agents) 0 0 = / 2).
  { assert (E := eps_share 0). unfold market_shares in E. cbn [aI aw eps_agents sumn] in E.
    unfold probs. rewrite Rmult_0_r, exp_0 in E. lra. }
  assert (HS0 : market_shares eps_market eps_agents true (fun _ => 0) 0 = / 2).
  { rewrite eps_share, Rmult_0_r, exp_0. lra. }
  assert (D2 : derivable_pt_lim (fun t => contraction eps_market eps_agents true (None, None)
     (market_shares eps_market eps_agents true (fun _ => 0)) (upd (fun _ => 0) 0 t) 0) 0 (- (1))).
  { apply dlim_ext with (fun t => t + ln (/ 2) - ln (exp (4 * t) / (1 + exp (4 * t)))).
    - intros t. unfold contraction. cbn [clip_share fst]. change (mH eps_market =? 0)%nat with true. cbv iota.
      rewrite HS0.
      replace (upd (fun _ => 0) 0 t) with (upd (fun _ : nat => 0) 0 t) by reflexivity.
      assert (E : market_shares eps_market eps_agents true (upd (fun _ => 0) 0 t) 0
                  = market_shares eps_market eps_agents true (fun _ => t) 0).
      { unfold market_shares. apply sumn_ext; intros i Hi. f_equal. }
      rewrite E, eps_share. reflexivity.
    - assert (H4 : derivable_pt_lim (fun t => exp (4 * t)) 0 (exp (4 * 0) * (4 * 1))).
      { apply (dlim_exp (fun t => 4 * t)). apply dlim_scal, dlim_id. }
      assert (Hp := exp_pos (4 * 0)).
      assert (D1 : derivable_pt_lim (fun t => 1 + exp (4 * t)) 0 (0 + exp (4 * 0) * (4 * 1)))
        by (apply dlim_plus; [apply dlim_const|exact H4]).
      assert (N : 1 + exp (4 * 0) <> 0) by lra.
      assert (D3 := dlim_div _ _ _ _ _ H4 D1 N). cbv beta in D3.
      assert (Hq : 0 < exp (4 * 0) / (1 + exp (4 * 0)))
        by (apply Rmult_lt_0_compat; [assumption|apply Rinv_0_lt_compat; lra]).
      eapply dlim_eq; [|apply dlim_minus; [apply dlim_plus; [apply dlim_id|apply dlim_const]|exact (dlim_ln _ _ _ D3 Hq)]].
      cbv beta. rewrite Rmult_0_r, exp_0. field. }
  assert (E := dlim_unique _ _ _ _ D D2).
  unfold contraction_jacobian in E. change (mH eps_market =? 0)%nat with true in E. cbv iota in E.
  cbn [aI aw eps_agents] in E.
  set (P := probs _ _ _) in *. clearbody P. cbn [sumn] in E. rewrite HP in E. lra.
Qed.

(** ** Implicit derivatives *)

Lemma total_tangent_ext m P C tg d d' j :
  (forall l, (l < mJ m)%nat -> d l = d' l) -> total_tangent m P C tg d j = total_tangent m P C tg d' j.
Proof. intros E. unfold total_tangent. f_equal. apply sumn_ext; intros l Hl. rewrite (E l Hl). reflexivity. Qed.
Lemma total_cond_tangent_ext m C tg d d' j :
  (forall l, (l < mJ m)%nat -> d l = d' l) -> total_cond_tangent m C tg d j = total_cond_tangent m C tg d' j.
Proof. intros E. unfold total_cond_tangent. f_equal. apply sumn_ext; intros l Hl. rewrite (E l Hl). reflexivity. Qed.

(** Mean utilities along which predicted shares stay at the observed shares, as a parameter in sigma or
    pi varies near its value. *)
Definition matching_path (m : market) (a : nat * (nat -> R)) (T : tastes) (sigma pi : nat -> nat -> R)
    (p : nonlinear_parameter) (observed : nat -> R) (dpath : R -> nat -> R) : Prop :=
  exists e, 0 < e /\ forall y j, Rabs (y - np_value p sigma pi) < e -> (j < mJ m)%nat ->
    market_shares m (mk_agents (fst a) (snd a) (mu_of T (sigma_with p sigma y) (pi_with p pi y))) true (dpath y) j
    = observed j.

Lemma matched_at m I w T sigma pi p observed dpath :
  valid_market m -> matching_path m (I, w) T sigma pi p observed dpath ->
  forall j, (j < mJ m)%nat ->
  observed j = sumn I (fun i => probs m (dpath (np_value p sigma pi)) (mu_of T sigma pi) i j * w i).
Proof.
  intros V [e [He Hm]] j Hj.
  assert (Et : Rabs (np_value p sigma pi - np_value p sigma pi) < e)
    by (unfold Rminus; rewrite Rplus_opp_r, Rabs_R0; assumption).
  rewrite <- (Hm _ j Et Hj). unfold market_shares. cbn [aI aw amu fst snd]. apply sumn_ext; intros i Hi. f_equal.
  apply probabilities_ext; try assumption. intros k Hk. unfold utility. rewrite mu_same. reflexivity.
Qed.

Lemma xi_by_theta_system m I w T sigma pi p observed dpath d :
  valid_market m -> in_range T p ->
  matching_path m (I, w) T sigma pi p observed dpath ->
  (forall k, (k < mJ m)%nat -> derivable_pt_lim (fun y => dpath y k) (np_value p sigma pi) (d k)) ->
  let delta := dpath (np_value p sigma pi) in
  let P := probs m delta (mu_of T sigma pi) in
  let C := conds m delta (mu_of T sigma pi) in
  solves (mJ m) (shares_by_xi_jacobian m I w observed P C)
    (fun j => - shares_by_theta I w (fun i => fst (utility_tangent m (P i) (C i) (vx T sigma pi p i))) j) d.
Proof.
  intros V HR [e [He Hm]] DD delta P C.
  apply (implicit_system m I w observed
    (fun y => probs m (dpath y) (mu_path T sigma pi p y)) P C
    (fun i => fst (utility_tangent m (P i) (C i) (vx T sigma pi p i))) d (np_value p sigma pi) e); try assumption.
  - intros i j Hj. unfold P, probs. apply probabilities_ext; try assumption.
    intros k Hk. apply utility_at.
  - intros i j Hj. apply path_prob; assumption.
Qed.

Lemma xi_by_theta_exact solve m a T sigma pi p observed dpath d :
  valid_market m -> valid_agents a -> in_range T p ->
  (mH m <> O -> forall h, (h < mH m)%nat -> 0 <= grho m h) ->
  exact_solver (mJ m) solve ->
  amu a = mu_of T sigma pi ->
  matching_path m (aI a, aw a) T sigma pi p observed dpath ->
  (forall k, (k < mJ m)%nat -> derivable_pt_lim (fun y => dpath y k) (np_value p sigma pi) (d k)) ->
  let delta := dpath (np_value p sigma pi) in
  let P := probs m delta (amu a) in
  let C := conds m delta (amu a) in
  let X := xi_by_theta solve m (aI a) (aw a) observed P C
             (fun i => fst (utility_tangent m (P i) (C i) (vx T sigma pi p i))) in
  snd X = false -> forall j, (j < mJ m)%nat -> fst X j = d j.
Proof.
  intros V VA HR Hpos HS Ea HM DD delta P C X HX j Hj.
  assert (S1 := xi_by_theta_system m (aI a) (aw a) T sigma pi p observed dpath d V HR HM DD). cbv zeta in S1.
  assert (S2 := HS _ _ HX).
  destruct (xi_jacobian_dominant m a delta observed V VA Hpos) as [R1 R2].
  { intros k Hk. rewrite Ea. apply (matched_at m (aI a) (aw a) T sigma pi p observed dpath V HM k Hk). }
  eapply dominant_unique; [exact R1|exact R2|exact S2| |exact Hj].
  unfold P, C, delta. rewrite Ea. exact S1.
Qed.

Lemma total_tangent_exact solve m a T sigma pi p observed dpath d :
  valid_market m -> valid_agents a -> in_range T p ->
  (mH m <> O -> forall h, (h < mH m)%nat -> 0 <= grho m h) ->
  exact_solver (mJ m) solve ->
  amu a = mu_of T sigma pi ->
  matching_path m (aI a, aw a) T sigma pi p observed dpath ->
  (forall k, (k < mJ m)%nat -> derivable_pt_lim (fun y => dpath y k) (np_value p sigma pi) (d k)) ->
  let t := np_value p sigma pi in
  let P := probs m (dpath t) (amu a) in
  let C := conds m (dpath t) (amu a) in
  let tangent := fun i => utility_tangent m (P i) (C i) (vx T sigma pi p i) in
  let X := xi_by_theta solve m (aI a) (aw a) observed P C (fun i => fst (tangent i)) in
  snd X = false -> forall i j, (j < mJ m)%nat ->
  derivable_pt_lim (fun y => probs m (dpath y) (mu_path T sigma pi p y) i j) t
    (total_tangent m (P i) (C i) (fst (tangent i)) (fst X) j) /\
  (mH m <> O -> derivable_pt_lim (fun y => conds m (dpath y) (mu_path T sigma pi p y) i j) t
    (total_cond_tangent m (C i) (snd (tangent i)) (fst X) j)).
Proof.
  intros V VA HR Hpos HS Ea HM DD t P C tangent X HX i j Hj.
  assert (EX := xi_by_theta_exact solve m a T sigma pi p observed dpath d V VA HR Hpos HS Ea HM DD HX).
  split.
  - rewrite (total_tangent_ext m (P i) (C i) _ (fst X) d j) by exact EX.
    unfold tangent, P, C. rewrite Ea. apply path_prob; assumption.
  - intros HH. rewrite (total_cond_tangent_ext m (C i) _ (fst X) d j) by exact EX.
    unfold tangent, P, C. rewrite Ea. apply path_cond; assumption.
Qed.

(** The same for a nesting parameter. *)
Definition matching_rho_path (m : market) (a : agents) (flag : nat -> bool) (t : R)
    (observed : nat -> R) (dpath : R -> nat -> R) : Prop :=
  exists e, 0 < e /\ forall y j, Rabs (y - t) < e -> (j < mJ m)%nat ->
    market_shares (rho_market m flag y) a true (dpath y) j = observed j.

Lemma rho_market_at m flag t : (forall h, flag h = true -> grho m h = t) -> rho_market m flag t = m.
Proof.
  intros Hf. unfold rho_market, with_rho. destruct m as [J H g mu r e]. cbn in *. f_equal.
  apply functional_extensionality; intros h. unfold rho_path. cbn. destruct (flag h) eqn:E; [|reflexivity].
  symmetry; apply Hf, E.
Qed.

Lemma xi_by_rho_exact solve m a flag t observed dpath d :
  valid_market m -> valid_agents a -> mH m <> O ->
  (forall h, flag h = true -> grho m h = t) -> t < 1 ->
  (rho_multi m = false -> forall h, (h < mH m)%nat -> flag h = true) ->
  (forall h, (h < mH m)%nat -> 0 <= grho m h) ->
  exact_solver (mJ m) solve ->
  matching_rho_path m a flag t observed dpath ->
  (forall k, (k < mJ m)%nat -> derivable_pt_lim (fun y => dpath y k) t (d k)) ->
  let P := probs m (dpath t) (amu a) in
  let C := conds m (dpath t) (amu a) in
  let tangent := fun i => rho_tangent m (P i) (C i) (dpath t) (amu a i) (fun h => indR (flag h)) in
  let X := xi_by_theta solve m (aI a) (aw a) observed P C (fun i => fst (tangent i)) in
  snd X = false ->
  (forall j, (j < mJ m)%nat -> fst X j = d j) /\
  (forall i j, (j < mJ m)%nat ->
     derivable_pt_lim (fun y => probs (rho_market m flag y) (dpath y) (amu a) i j) t
       (total_tangent m (P i) (C i) (fst (tangent i)) (fst X) j) /\
     derivable_pt_lim (fun y => conds (rho_market m flag y) (dpath y) (amu a) i j) t
       (total_cond_tangent m (C i) (snd (tangent i)) (fst X) j)).
Proof.
  intros V VA HH Hf Ht Hall Hpos HS [e [He Hm]] DD P C tangent X HX.
  assert (Em := rho_market_at m flag t Hf).
  assert (Ho : forall j, (j < mJ m)%nat -> observed j = sumn (aI a) (fun i => P i j * aw a i)).
  { intros j Hj. assert (Et : Rabs (t - t) < e) by (unfold Rminus; rewrite Rplus_opp_r, Rabs_R0; assumption).
    rewrite <- (Hm t j Et Hj), Em. reflexivity. }
  assert (S1 : solves (mJ m) (shares_by_xi_jacobian m (aI a) (aw a) observed P C)
     (fun j => - shares_by_theta (aI a) (aw a) (fun i => fst (tangent i)) j) d).
  { apply (implicit_system m (aI a) (aw a) observed
      (fun y => probs (rho_market m flag y) (dpath y) (amu a)) P C (fun i => fst (tangent i)) d t e); try assumption.
    - intros i j Hj. rewrite Em. reflexivity.
    - intros i j Hj. apply rho_path_prob; assumption. }
  assert (S2 := HS _ _ HX).
  destruct (xi_jacobian_dominant m a (dpath t) observed V VA (fun _ => Hpos) Ho) as [R1 R2].
  assert (EX : forall j, (j < mJ m)%nat -> fst X j = d j).
  { intros j Hj. eapply dominant_unique; [exact R1|exact R2|exact S2|exact S1|exact Hj]. }
  split; [exact EX|]. intros i j Hj. split.
  - rewrite (total_tangent_ext m (P i) (C i) _ (fst X) d j) by exact EX. apply rho_path_prob; assumption.
  - rewrite (total_cond_tangent_ext m (C i) _ (fst X) d j) by exact EX. apply rho_path_cond; assumption.
Qed.

(** ** Markups along the path *)
Section Markup.
  Variables (M : full_market) (T : tastes) (sigma pi : nat -> nat -> R) (p : nonlinear_parameter).
  Hypothesis V : valid_market (fm M).
  Hypothesis HR : in_range T p.
  Hypothesis HK : fK2 M = r_K2 T.
  Hypothesis HX : forall j k, r_X2 T j k = if uses (fX2 M k) then ev (fX2 M k) j (var0 M j) else X2_0 M j k.
  Let t := np_value p sigma pi.
  Variables (dpath : R -> nat -> R) (d : nat -> R).
  Hypothesis DD : forall k, (k < mJ (fm M))%nat -> derivable_pt_lim (fun y => dpath y k) t (d k).
  Definition market_at (y : R) : full_market := tastes_at M T (dpath y) (sigma_with p sigma y) (pi_with p pi y).
  Let P := probs (fm M) (dpath t) (mu_of T sigma pi).
  Let C := conds (fm M) (dpath t) (mu_of T sigma pi).
  Let U := utility_derivatives (tastes_at M T (dpath t) sigma pi) false (var0 M).
  Let tangent i := utility_tangent (fm M) (P i) (C i) (vx T sigma pi p i).
  Let dP i j := total_tangent (fm M) (P i) (C i) (fst (tangent i)) d j.
  Let dC i j := total_cond_tangent (fm M) (C i) (snd (tangent i)) d j.
  Let dU := utility_derivatives_tangent (fm M) T sigma pi (X2_derivatives M) p.

  Lemma market_delta y : update_delta (market_at y) (var0 M) = dpath y.
  Proof.
    apply functional_extensionality; intros j. unfold update_delta. cbn.
    rewrite (sumn_ext (fK1 M) _ (fun _ => 0)); [rewrite sumn_zero; ring|].
    intros k Hk. destruct (uses (fX1 M k)); [ring|reflexivity].
  Qed.

  Lemma market_mu y : update_mu (market_at y) (var0 M) = mu_path T sigma pi p y.
  Proof.
    apply functional_extensionality; intros i. apply functional_extensionality; intros j.
    unfold update_mu, compute_mu, mu_path, mu_of. cbn. rewrite HK. apply sumn_ext; intros k Hk.
    rewrite HX. reflexivity.
  Qed.

  Lemma utility_derivatives_path i j : (j < mJ (fm M))%nat ->
    derivable_pt_lim (fun y => utility_derivatives (market_at y) false (var0 M) i j) t (dU i j).
  Proof.
    intros Hj. unfold dU, utility_derivatives_tangent. rewrite eps_div.
    apply dlim_ext with (fun y =>
      (sumn (fK1 M) (fun k => (if uses (fX1 M k) then dv1 (fX1 M k) j (var0 M j) else 0) * fbeta M k)
       + sumn (fK2 M) (fun k => X2_derivatives M j k
           * random_coefficients T (sigma_with p sigma y) (pi_with p pi y) k j i)) * / eps_scale (fm M)).
    { intros y. unfold utility_derivatives. cbn [market_at tastes_at fm]. rewrite eps_div. reflexivity. }
    unfold Rdiv. apply (dlim_scal_r (/ eps_scale (fm M))).
    eapply dlim_eq; [|apply dlim_plus; [apply dlim_const|apply (dlim_sumn (fK2 M)
      (fun k y => X2_derivatives M j k * random_coefficients T (sigma_with p sigma y) (pi_with p pi y) k j i) t
      (fun k => if Nat.eqb k (np_row p) then X2_derivatives M j k * effective_characteristic T sigma pi p i j else 0))]].
    - rewrite (sumn_delta (fK2 M) (np_row p) (fun k => X2_derivatives M j k * effective_characteristic T sigma pi p i j)).
      + ring.
      + rewrite HK. destruct p; apply HR.
    - intros k Hk. eapply dlim_eq; [|apply dlim_scal, rc_derive, HR]. destruct (Nat.eqb k (np_row p)); ring.
  Qed.

  Lemma market_at_t_P i j : (j < mJ (fm M))%nat -> probs (fm M) (dpath t) (mu_path T sigma pi p t) i j = P i j.
  Proof. intros Hj. unfold P, probs. apply probabilities_ext; try assumption. intros; apply utility_at. Qed.
  Lemma market_at_t_C i j : (j < mJ (fm M))%nat -> conds (fm M) (dpath t) (mu_path T sigma pi p t) i j = C i j.
  Proof. intros Hj. unfold C. rewrite !conds_cond. apply cond_ext; try assumption. intros; apply utility_at. Qed.
  Lemma market_at_t_U i j : utility_derivatives (market_at t) false (var0 M) i j = U i j.
  Proof.
    unfold U, utility_derivatives. cbn. rewrite !eps_div. f_equal. f_equal. apply sumn_ext; intros k _. f_equal.
    apply rc_same.
  Qed.

  Lemma market_capital_delta O j k : (j < mJ (fm M))%nat -> (k < mJ (fm M))%nat ->
    derivable_pt_lim (fun y => capital_delta (market_at y) O (var0 M) j k) t
      (capital_delta_tangent (fm M) (fI M) (fw M) P C U dP dC dU (fun _ => 0) O j k).
  Proof.
    intros Hj Hk.
    assert (D := capital_delta_derive (fm M) (fI M) (fw M) t (fun h _ => grho (fm M) h) (fun _ => 0)
      (fun y => probs (fm M) (dpath y) (mu_path T sigma pi p y))
      (fun y => conds (fm M) (dpath y) (mu_path T sigma pi p y))
      (fun y => utility_derivatives (market_at y) false (var0 M)) dP dC dU
      (fun HH j Hj => rho_lt _ _ V HH Hj) (fun _ => eq_refl) (fun _ _ => dlim_const _ _)
      (fun i j Hj => path_prob (fm M) T sigma pi p V HR dpath d DD i j Hj)
      (fun HH i j Hj => path_cond (fm M) T sigma pi p V HR dpath d DD i j HH Hj)
      utility_derivatives_path O j k Hj Hk).
    cbv beta in D.
    eapply dlim_eq; [|eapply dlim_ext; [|exact D]].
    - assert (EU : utility_derivatives (market_at t) false (var0 M) = U).
      { apply functional_extensionality; intros i. apply functional_extensionality; intros c. apply market_at_t_U. }
      rewrite EU.
      assert (EG : forall a b, (a < mJ (fm M))%nat -> (b < mJ (fm M))%nat ->
        capital_gamma_tangent (fm M) (fI M) (fw M) (probs (fm M) (dpath t) (mu_path T sigma pi p t))
          (conds (fm M) (dpath t) (mu_path T sigma pi p t)) U dP dC dU (fun _ => 0) a b
        = capital_gamma_tangent (fm M) (fI M) (fw M) P C U dP dC dU (fun _ => 0) a b).
      { intros a b Ha Hb. unfold capital_gamma_tangent, pud_tangent.
        repeat (f_equal; try (apply sumn_ext; intros i _; rewrite ?market_at_t_P, ?market_at_t_C by assumption; reflexivity)).
        all: destruct (Nat.eqb (mH (fm M)) 0); repeat (f_equal; try (apply sumn_ext; intros i _; rewrite ?market_at_t_P, ?market_at_t_C by assumption; reflexivity)). }
      assert (EL : forall a, (a < mJ (fm M))%nat ->
        capital_lamda_tangent (fm M) (fI M) (fw M) (probs (fm M) (dpath t) (mu_path T sigma pi p t)) U dP dU (fun _ => 0) a
        = capital_lamda_tangent (fm M) (fI M) (fw M) P U dP dU (fun _ => 0) a).
      { intros a Ha. unfold capital_lamda_tangent, pud_tangent.
        rewrite (sumn_ext (fI M) (fun i => (dP i a * U i a + probs (fm M) (dpath t) (mu_path T sigma pi p t) i a * dU i a) * fw M i)
          (fun i => (dP i a * U i a + P i a * dU i a) * fw M i)) by (intros; rewrite market_at_t_P by assumption; reflexivity).
        rewrite (sumn_ext (fI M) (fun i => probs (fm M) (dpath t) (mu_path T sigma pi p t) i a * U i a * fw M i)
          (fun i => P i a * U i a * fw M i)) by (intros; rewrite market_at_t_P by assumption; reflexivity).
        reflexivity. }
      unfold capital_delta_tangent. rewrite EG, EL by assumption. reflexivity.
    - intros y. unfold capital_delta_curve, capital_delta, gamma_at, lamda_at.
      rewrite market_delta, market_mu. cbn [market_at tastes_at fm fI fw].
      unfold with_rho.
      replace (mk_market (mJ (fm M)) (mH (fm M)) (gid (fm M)) (rho_multi (fm M)) (fun h => grho (fm M) h) (eps_scale (fm M)))
        with (fm M) by (destruct (fm M); reflexivity).
      reflexivity.
  Qed.

  Lemma eta_by_theta_exact O observed eta deta inv e :
    0 < e ->
    (forall y, Rabs (y - t) < e -> solves (mJ (fm M)) (capital_delta (market_at y) O (var0 M)) observed (eta y)) ->
    (forall k, (k < mJ (fm M))%nat -> derivable_pt_lim (fun y => eta y k) t (deta k)) ->
    (forall j k, (j < mJ (fm M))%nat -> (k < mJ (fm M))%nat ->
       sumn (mJ (fm M)) (fun a => inv j a * capital_delta (market_at t) O (var0 M) a k) = if Nat.eqb j k then 1 else 0) ->
    forall j, (j < mJ (fm M))%nat ->
    deta j = eta_by_theta (mJ (fm M)) inv
      (capital_delta_tangent (fm M) (fI M) (fw M) P C U dP dC dU (fun _ => 0) O) (eta t) j.
  Proof.
    intros He Hs Heta Hinv j Hj.
    apply (eta_implicit (mJ (fm M)) (fun y => capital_delta (market_at y) O (var0 M)) _ inv eta deta observed t e); try assumption.
    - intros y a Hy Ha. apply (Hs y Hy a Ha).
    - intros a b Ha Hb. apply market_capital_delta; assumption.
  Qed.
End Markup.

(** ** Tangents at fixed mean utilities *)
Lemma total_tangent_zero m P C tg j : total_tangent m P C tg (fun _ => 0) j = tg j.
Proof.
  unfold total_tangent. rewrite (sumn_ext (mJ m) _ (fun _ => 0)) by (intros; ring). rewrite sumn_zero. ring.
Qed.
Lemma total_cond_tangent_zero m C tg j : total_cond_tangent m C tg (fun _ => 0) j = tg j.
Proof.
  unfold total_cond_tangent. rewrite (sumn_ext (mJ m) _ (fun _ => 0)) by (intros; ring). rewrite sumn_zero. ring.
Qed.

Lemma nonlinear_tangent_exact m T sigma pi p delta i j :
  valid_market m -> in_range T p -> (j < mJ m)%nat ->
  let P := probs m delta (mu_of T sigma pi) in
  let C := conds m delta (mu_of T sigma pi) in
  let tangent := utility_tangent m (P i) (C i) (fun k => r_X2 T k (np_row p) * effective_characteristic T sigma pi p i k) in
  derivable_pt_lim (fun y => probs m delta (mu_of T (sigma_with p sigma y) (pi_with p pi y)) i j)
    (np_value p sigma pi) (fst tangent j) /\
  (mH m <> O ->
   derivable_pt_lim (fun y => conds m delta (mu_of T (sigma_with p sigma y) (pi_with p pi y)) i j)
     (np_value p sigma pi) (snd tangent j)).
Proof.
  intros V HR Hj P C tangent. split.
  - eapply dlim_eq; [|apply (path_prob m T sigma pi p V HR (fun _ => delta) (fun _ => 0)); [intros; apply dlim_const|exact Hj]].
    rewrite total_tangent_zero. reflexivity.
  - intros HH. eapply dlim_eq; [|apply (path_cond m T sigma pi p V HR (fun _ => delta) (fun _ => 0)); [intros; apply dlim_const|exact HH|exact Hj]].
    rewrite total_cond_tangent_zero. reflexivity.
Qed.

Lemma rho_tangent_exact m mu flag t delta i j :
  valid_market m -> mH m <> O ->
  (forall h, flag h = true -> grho m h = t) -> t < 1 ->
  (rho_multi m = false -> forall h, (h < mH m)%nat -> flag h = true) -> (j < mJ m)%nat ->
  let tangent := rho_tangent m (probs m delta mu i) (conds m delta mu i) delta (mu i) (fun h => indR (flag h)) in
  derivable_pt_lim (fun y => probs (with_rho m (fun h => if flag h then y else grho m h)) delta mu i j) t (fst tangent j) /\
  derivable_pt_lim (fun y => conds (with_rho m (fun h => if flag h then y else grho m h)) delta mu i j) t (snd tangent j).
Proof.
  intros V HH Hf Ht Hall Hj tangent. split.
  - eapply dlim_eq; [|apply (rho_path_prob m mu flag t V HH Hf Ht Hall (fun _ => delta) (fun _ => 0)); [intros; apply dlim_const|exact Hj]].
    rewrite total_tangent_zero. reflexivity.
  - eapply dlim_eq; [|apply (rho_path_cond m mu flag t V HH Hf Ht Hall (fun _ => delta) (fun _ => 0)); [intros; apply dlim_const|exact Hj]].
    rewrite total_cond_tangent_zero. reflexivity.
Qed.

Lemma beta_tangent_exact m (X rest : nat -> R) b mu i j :
  valid_market m -> (j < mJ m)%nat ->
  let delta := fun y k => X k * y + rest k in
  let tangent := utility_tangent m (probs m (delta b) mu i) (conds m (delta b) mu i) X in
  derivable_pt_lim (fun y => probs m (delta y) mu i j) b (fst tangent j) /\
  (mH m <> O -> derivable_pt_lim (fun y => conds m (delta y) mu i j) b (snd tangent j)).
Proof.
  intros V Hj delta tangent.
  assert (DU : forall k, (k < mJ m)%nat ->
     derivable_pt_lim (fun y => utility m (delta y) (mu i) k) b (X k / eps_scale m)).
  { intros k _. unfold utility, delta, Rdiv. apply (dlim_scal_r (/ eps_scale m)).
    eapply dlim_eq; [|apply dlim_plus; [apply dlim_plus; [apply dlim_scal, dlim_id|apply dlim_const]|apply dlim_const]]. ring. }
  assert (E := utility_tangent_slope m true (delta b) (mu i) X j V Hj). cbv zeta in E. destruct E as [E1 E2].
  split.
  - unfold probs at 1.
    eapply dlim_eq; [|apply (prob_derive m true delta (fun _ => mu i) b _ j V Hj DU)]. cbv zeta.
    rewrite <- E1. reflexivity.
  - intros HH.
    apply dlim_ext with (fun y => cond_of (probabilities_linear m full_choice true (delta y) (mu i)) j);
      [intros; symmetry; apply conds_cond|].
    eapply dlim_eq; [|apply (cond_derive m true delta (fun _ => mu i) b _ j V HH Hj DU)].
    rewrite <- (E2 HH). reflexivity.
Qed.

(** ** Markups as a nesting parameter moves *)
Definition with_market (M : full_market) (m : market) (delta : nat -> R) : full_market :=
  mk_full_market m (fI M) (fw M) (fK1 M) (fX1 M) (fbeta M) (fK2 M) (fX2 M) (fcoef M) (var0 M) delta (X2_0 M).

Section MarkupRho.
  Variables (M : full_market) (flag : nat -> bool) (t : R).
  Let m := fm M.
  Hypothesis V : valid_market m.
  Hypothesis HH : mH m <> O.
  Hypothesis Hflag : forall h, flag h = true -> grho m h = t.
  Hypothesis Ht : t < 1.
  Hypothesis Hall : rho_multi m = false -> forall h, (h < mH m)%nat -> flag h = true.
  Variables (dpath : R -> nat -> R) (d : nat -> R).
  Hypothesis DD : forall k, (k < mJ m)%nat -> derivable_pt_lim (fun y => dpath y k) t (d k).
  Definition rho_full_at (y : R) : full_market := with_market M (rho_market (fm M) flag y) (dpath y).
  Let mu := update_mu M (var0 M).
  Let P := probs m (dpath t) mu.
  Let C := conds m (dpath t) mu.
  Let U := utility_derivatives M false (var0 M).
  Let tangent i := rho_tangent m (P i) (C i) (dpath t) (mu i) (fun h => indR (flag h)).
  Let dP i j := total_tangent m (P i) (C i) (fst (tangent i)) d j.
  Let dC i j := total_cond_tangent m (C i) (snd (tangent i)) d j.

  Lemma rho_market_delta y : update_delta (rho_full_at y) (var0 M) = dpath y.
  Proof.
    apply functional_extensionality; intros j. unfold update_delta. cbn.
    rewrite (sumn_ext (fK1 M) _ (fun _ => 0)); [rewrite sumn_zero; ring|].
    intros k Hk. destruct (uses (fX1 M k)); [ring|reflexivity].
  Qed.

  Lemma rho_market_capital_delta O j k : (j < mJ m)%nat -> (k < mJ m)%nat ->
    derivable_pt_lim (fun y => capital_delta (rho_full_at y) O (var0 M) j k) t
      (capital_delta_tangent m (fI M) (fw M) P C U dP dC (fun _ _ => 0) (fun h => indR (flag h)) O j k).
  Proof.
    intros Hj Hk.
    assert (D := capital_delta_derive m (fI M) (fw M) t (rho_path m flag) (fun h => indR (flag h))
      (fun y => probs (rho_market m flag y) (dpath y) mu)
      (fun y => conds (rho_market m flag y) (dpath y) mu)
      (fun y => U) dP dC (fun _ _ => 0)
      (fun HH j Hj => rho_lt _ _ V HH Hj) (fun h => rho_path_at m flag t Hflag h)
      (fun j _ => rho_path_derive m flag t (gid m j))
      (fun i j Hj => rho_path_prob m mu flag t V HH Hflag Ht Hall dpath d DD i j Hj)
      (fun HH i j Hj => rho_path_cond m mu flag t V HH Hflag Ht Hall dpath d DD i j Hj)
      (fun i j Hj => dlim_const _ _) O j k Hj Hk).
    cbv beta in D.
    eapply dlim_eq; [|eapply dlim_ext; [|exact D]].
    - rewrite (rho_market_at m flag t Hflag). reflexivity.
    - intros y. unfold capital_delta_curve, capital_delta, gamma_at, lamda_at.
      rewrite rho_market_delta. reflexivity.
  Qed.

  Lemma eta_by_rho_exact O observed eta deta inv e :
    0 < e ->
    (forall y, Rabs (y - t) < e -> solves (mJ m) (capital_delta (rho_full_at y) O (var0 M)) observed (eta y)) ->
    (forall k, (k < mJ m)%nat -> derivable_pt_lim (fun y => eta y k) t (deta k)) ->
    (forall j k, (j < mJ m)%nat -> (k < mJ m)%nat ->
       sumn (mJ m) (fun a => inv j a * capital_delta (rho_full_at t) O (var0 M) a k) = if Nat.eqb j k then 1 else 0) ->
    forall j, (j < mJ m)%nat ->
    deta j = eta_by_theta (mJ m) inv
      (capital_delta_tangent m (fI M) (fw M) P C U dP dC (fun _ _ => 0) (fun h => indR (flag h)) O) (eta t) j.
  Proof.
    intros He Hs Heta Hinv j Hj.
    apply (eta_implicit (mJ m) (fun y => capital_delta (rho_full_at y) O (var0 M)) _ inv eta deta observed t e); try assumption.
    - intros y a Hy Ha. apply (Hs y Hy a Ha).
    - intros a b Ha Hb. apply rho_market_capital_delta; assumption.
  Qed.
End MarkupRho.

(** ** Concrete cases *)
Definition one_taste : tastes := mk_tastes 1 0 (fun _ => RCLinear) (fun _ _ => 1) (fun _ _ _ => 0) (fun _ _ => 1).
Definition one_market : market := mk_market 1 0 (fun _ => O) false (fun _ => 0) 1.
Lemma one_market_valid : valid_market one_market.
Proof. constructor; cbn; intros; try lia; try lra; try congruence. Qed.
Lemma one_market_prob (d : nat -> R) (mu : nat -> nat -> R) i : d O + mu i O = 0 -> probs one_market d mu i 0 = / 2.
Proof.
  intros E. unfold probs. rewrite full_choice_with.
  destruct (probabilities_spec one_market true true None None None d (mu i) one_market_valid) as [P _].
  destruct (P eq_refl) as [P1 _]. rewrite P1 by (cbn; lia).
  unfold logit, utility; cbn. rewrite E. replace (0 / 1) with 0 by field. rewrite exp_0. field.
Qed.

Lemma matching_example :
  let a := mk_agents 1 (fun _ => 1) (mu_of one_taste (fun _ _ => 3) (fun _ _ => 0)) in
  let p := SigmaParameter 0 0 in
  let dpath := fun y (_ : nat) => - y in
  valid_agents a /\ in_range one_taste p /\
  matching_path one_market (aI a, aw a) one_taste (fun _ _ => 3) (fun _ _ => 0) p (fun _ => / 2) dpath /\
  derivable_pt_lim (fun y => dpath y 0%nat) (np_value p (fun _ _ => 3) (fun _ _ => 0)) (- (1)) /\
  (let t := np_value p (fun _ _ => 3) (fun _ _ => 0) in
   snd (xi_by_theta scalar_solver one_market (aI a) (aw a) (fun _ => / 2) (probs one_market (dpath t) (amu a))
     (conds one_market (dpath t) (amu a))
     (fun i => fst (utility_tangent one_market (probs one_market (dpath t) (amu a) i)
         (conds one_market (dpath t) (amu a) i) (vx one_taste (fun _ _ => 3) (fun _ _ => 0) p i)))) = false).
Proof.
  cbv zeta. split; [split; [intros; cbn; lra|exists O; cbn; split; [lia|lra]]|].
  split; [cbn; lia|]. split; [|split].
  - exists 1. split; [lra|]. intros y j _ Hj. cbn in Hj. assert (j = O) by lia. subst j.
    unfold market_shares. cbn [aI aw amu fst snd sumn].
    assert (E := one_market_prob (fun _ => - y)
      (mu_of one_taste (sigma_with (SigmaParameter 0 0) (fun _ _ => 3) y) (pi_with (SigmaParameter 0 0) (fun _ _ => 0) y)) O).
    unfold probs in E. rewrite E; [ring|]. unfold mu_of, random_coefficients. cbn. ring.
  - apply dlim_opp, dlim_id.
  - cbn [np_value]. unfold xi_by_theta, scalar_solver. cbn [snd].
    assert (E := one_market_prob (fun _ => - (3)) (mu_of one_taste (fun _ _ => 3) (fun _ _ => 0)) O).
    unfold shares_by_xi_jacobian. cbn [aI aw amu].
    set (P := probs _ _ _) in *. clearbody P. cbn [sumn]. rewrite E.
    + rewrite eps_div. change (eps_scale one_market) with 1. simpl. destruct (Req_EM_T _ 0) as [Z|]; [|reflexivity]. exfalso; lra.
    + unfold mu_of, random_coefficients. cbn. ring.
Qed.
