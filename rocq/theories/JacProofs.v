(** Proofs about the Jacobians of fixed points. *)
From Coq Require Import Reals Lra Lia List Bool Arith FunctionalExtensionality.
From Verif Require Import Base DemandSpec DemandModel DemandProofs DemandShares DemandElim DemandDeriv
  SupplyModel SupplySpec SupplyProofs DerivModel DerivProofs DerivCurve DerivParam DerivMore EndoModel JacModel.
Local Open Scope R_scope.

(** What sympy says about free symbols is right: a derivative that does not mention prices is constant. *)
Definition right_mentions (M : full_market) (mentions : bool -> column -> bool) : Prop :=
  forall second c j y z,
    (exists k, (k < fK1 M)%nat /\ c = fX1 M k) \/ (exists k, (k < fK2 M)%nat /\ c = fX2 M k) ->
    mentions second c = false ->
    (if second then dv2 c else dv1 c) j y = (if second then dv2 c else dv1 c) j z.

Lemma existsb_false {A} (f : A -> bool) l : existsb f l = false -> forall a, In a l -> f a = false.
Proof.
  intros E a Ha. destruct (f a) eqn:F; [|reflexivity].
  exfalso. assert (existsb f l = true) by (apply existsb_exists; exists a; split; assumption). congruence.
Qed.

Lemma reused_right M mentions second x : right_mentions M mentions ->
  reused_derivatives M mentions second x = utility_derivatives M second x.
Proof.
  intros H. unfold reused_derivatives. destruct (any_mentions M mentions second) eqn:E; [reflexivity|].
  unfold any_mentions in E. apply orb_false_iff in E. destruct E as [E1 E2].
  apply functional_extensionality; intros i. apply functional_extensionality; intros j.
  unfold utility_derivatives. cbv zeta.
  assert (S1 : sumn (fK1 M) (fun k => (if uses (fX1 M k) then (if second then dv2 (fX1 M k) else dv1 (fX1 M k)) j (var0 M j) else 0) * fbeta M k)
             = sumn (fK1 M) (fun k => (if uses (fX1 M k) then (if second then dv2 (fX1 M k) else dv1 (fX1 M k)) j (x j) else 0) * fbeta M k)).
  { apply sumn_ext; intros k Hk. destruct (uses (fX1 M k)); [|reflexivity]. f_equal.
    apply H; [left; exists k; split; auto|]. apply (existsb_false _ _ E1). apply in_seq; lia. }
  assert (S2 : sumn (fK2 M) (fun k => (if uses (fX2 M k) then (if second then dv2 (fX2 M k) else dv1 (fX2 M k)) j (var0 M j) else 0) * fcoef M k j i)
             = sumn (fK2 M) (fun k => (if uses (fX2 M k) then (if second then dv2 (fX2 M k) else dv1 (fX2 M k)) j (x j) else 0) * fcoef M k j i)).
  { apply sumn_ext; intros k Hk. destruct (uses (fX2 M k)); [|reflexivity]. f_equal.
    apply H; [right; exists k; split; auto|]. apply (existsb_false _ _ E2). apply in_seq; lia. }
  rewrite S1, S2. reflexivity.
Qed.

Lemma updated_prices_contraction constant M mentions O S shares0 costs x j : right_mentions M mentions ->
  updated_prices constant M mentions O S shares0 costs x j = endogenous_contraction constant M O S shares0 costs x j.
Proof.
  intros H. unfold updated_prices. rewrite (reused_right M mentions false x H). reflexivity.
Qed.

(** Columns of X3 that use shares have correct derivatives at the shares in question. *)
Definition good_costs (J : nat) (S : supply) (s : nat -> R) : Prop :=
  forall k j, (k < sK3 S)%nat -> (j < J)%nat -> uses (sX3 S k) = true ->
    derivable_pt_lim (ev (sX3 S k) j) (s j) (dv1 (sX3 S k) j (s j)).

Lemma prodn_exp n (f : nat -> R) : prodn n (fun k => exp (f k)) = exp (sumn n f).
Proof. induction n as [|n IH]; cbn [prodn sumn]; [rewrite exp_0; reflexivity|]. rewrite IH, exp_plus. reflexivity. Qed.

Lemma prodn_ext n (f g : nat -> R) : (forall k, (k < n)%nat -> f k = g k) -> prodn n f = prodn n g.
Proof.
  induction n as [|n IH]; intros E; cbn [prodn]; [reflexivity|]. rewrite IH by (intros; apply E; lia).
  rewrite E by lia. reflexivity.
Qed.

(** Costs as a function of the share of the same product only. *)
Lemma update_costs_derive S shares0 costs (f : R -> nat -> R) t0 d j J :
  good_costs J S (f t0) -> (j < J)%nat -> derivable_pt_lim (fun t => f t j) t0 d ->
  derivable_pt_lim (fun t => update_costs S shares0 costs (f t) j) t0
    (costs_derivatives S (update_costs S shares0 costs (f t0)) (f t0) j * d).
Proof.
  intros G Hj D. unfold update_costs, costs_derivatives. cbv zeta.
  set (change := fun t k => if uses (sX3 S k) then sgamma S k * (ev (sX3 S k) j (f t j) - ev (sX3 S k) j (shares0 j)) else 0).
  set (dd := fun k => (if uses (sX3 S k) then dv1 (sX3 S k) j (f t0 j) else 0) * sgamma S k).
  assert (DC : derivable_pt_lim (fun t => sumn (sK3 S) (change t)) t0 (sumn (sK3 S) (fun k => dd k * d))).
  { apply (dlim_sumn (sK3 S) (fun k t => change t k)). intros k Hk. unfold change, dd.
    destruct (uses (sX3 S k)) eqn:E.
    - apply dlim_eq with (sgamma S k * (dv1 (sX3 S k) j (f t0 j) * d - 0)); [ring|].
      apply dlim_scal. apply dlim_minus; [|apply dlim_const].
      apply (derivable_pt_lim_comp (fun t => f t j) (ev (sX3 S k) j)); [exact D|]. apply G; assumption.
    - eapply dlim_eq; [|apply dlim_const]. ring. }
  assert (ES : sumn (sK3 S) (fun k => dd k * d) = sumn (sK3 S) dd * d) by (apply sumn_scal_r).
  rewrite ES in DC. fold dd.
  destruct (stype S) eqn:ET.
  - eapply dlim_eq; [|apply dlim_plus; [apply dlim_const|exact DC]]. ring.
  - assert (EP : forall t, prodn (sK3 S) (fun k => if uses (sX3 S k) then exp (sgamma S k * (ev (sX3 S k) j (f t j) - ev (sX3 S k) j (shares0 j))) else 1)
                 = exp (sumn (sK3 S) (change t))).
    { intros t. rewrite <- prodn_exp. apply prodn_ext. intros k Hk. unfold change.
      destruct (uses (sX3 S k)); [reflexivity|rewrite exp_0; reflexivity]. }
    apply dlim_ext with (fun t => costs j * exp (sumn (sK3 S) (change t))); [intros t; rewrite EP; reflexivity|].
    eapply dlim_eq; [|apply dlim_scal; apply dlim_exp; exact DC]. cbv beta. rewrite EP. ring.
Qed.

Lemma nonzero_near f x d : derivable_pt_lim f x d -> f x <> 0 ->
  exists e, 0 < e /\ forall y, Rabs (y - x) < e -> f y <> 0.
Proof.
  intros D N.
  assert (Cn : continuity_pt f x) by (apply derivable_continuous_pt; exists d; exact D).
  destruct (continuous_neq_0 f x Cn N) as [e He]. exists e. split; [apply cond_pos|].
  intros y Hy. replace y with (x + (y - x)) by ring. apply He; assumption.
Qed.

Lemma shares_at_same M x l j : valid_market (fm M) -> (j < mJ (fm M))%nat -> shares_at M (upd x l (x l)) j = shares_at M x j.
Proof.
  intros V Hj. replace (upd x l (x l)) with x; [reflexivity|].
  apply functional_extensionality; intros k. symmetry; apply upd_same.
Qed.

Lemma upd_id x l : upd x l (x l) = x.
Proof. apply functional_extensionality; intros k. apply upd_same. Qed.

Lemma prices_jacobian_derive constant M mentions O S shares0 costs x j l :
  valid_market (fm M) -> good_columns M x -> twice_differentiable M x -> right_mentions M mentions ->
  (constant = false -> good_costs (mJ (fm M)) S (shares_at M x)) ->
  lamda_at M x j <> 0 -> (j < mJ (fm M))%nat -> (l < mJ (fm M))%nat ->
  derivable_pt_lim (fun t => updated_prices constant M mentions O S shares0 costs (upd x l t) j) (x l)
    (prices_jacobian constant M mentions O S shares0 costs x j l).
Proof.
  intros V G G2 HM GC N Hj Hl.
  apply dlim_ext with (fun t => endogenous_contraction constant M O S shares0 costs (upd x l t) j);
    [intros t; symmetry; apply updated_prices_contraction; assumption|].
  set (cost := fun t => costs_given constant M S shares0 costs (upd x l t)).
  set (cd := fun k => if constant then 0 else
       costs_derivatives S (update_costs S shares0 costs (shares_at M x)) (shares_at M x) k * shares_jacobian M x k l).
  assert (DCost : forall k, (k < mJ (fm M))%nat -> derivable_pt_lim (fun t => cost t k) (x l) (cd k)).
  { intros k Hk. unfold cost, cd, costs_given. destruct constant; [apply dlim_const|].
    assert (DU := update_costs_derive S shares0 costs (fun t => shares_at M (upd x l t)) (x l) (shares_jacobian M x k l) k (mJ (fm M))).
    cbv beta in DU. rewrite upd_id in DU. apply DU; [apply GC; reflexivity|assumption|apply jacobian_is_derivative; assumption]. }
  assert (Ecost : cost (x l) = costs_given constant M S shares0 costs x) by (unfold cost; rewrite upd_id; reflexivity).
  assert (DL := lamda_derive M x V G G2 j l Hj Hl).
  assert (DGm : forall k, (k < mJ (fm M))%nat -> _) by (intros k Hk; exact (gamma_derive M x V G G2 k j l Hk Hj Hl)).
  assert (DS := jacobian_is_derivative M x j l V G Hj Hl).
  destruct (nonzero_near _ _ _ DL) as [e [He Hne]]; [cbv beta; rewrite upd_id; assumption|].
  apply dlim_ext_near with (fun t =>
     cost t j + (1 / lamda_at M (upd x l t) j
                 * sumn (mJ (fm M)) (fun k => O k j * gamma_at M (upd x l t) k j * (upd x l t k - cost t k))
                 - 1 / lamda_at M (upd x l t) j * shares_at M (upd x l t) j)) e.
  - assumption.
  - intros y Hy. unfold endogenous_contraction, price_contraction, zeta, lamda_inv.
    destruct (Req_EM_T (lamda_at M (upd x l y) j) 0) as [Z|_]; [exfalso; exact (Hne y Hy Z)|]. reflexivity.
  - assert (N' : lamda_at M (upd x l (x l)) j <> 0) by (rewrite upd_id; assumption).
    assert (DI := dlim_div _ _ _ _ _ (dlim_const 1 (x l)) DL N'). cbv beta in DI.
    assert (DM : derivable_pt_lim (fun t => sumn (mJ (fm M)) (fun k => O k j * gamma_at M (upd x l t) k j * (upd x l t k - cost t k))) (x l)
      (sumn (mJ (fm M)) (fun k => O k j * capital_gamma_tensor (fm M) (fI M) (fw M)
           (probs (fm M) (update_delta M x) (update_mu M x)) (conds (fm M) (update_delta M x) (update_mu M x))
           (utility_derivatives M false x) (utility_derivatives M true x) k j l * (x k - costs_given constant M S shares0 costs x k)
         + O k j * gamma_at M x k j * ((if Nat.eqb k l then 1 else 0) - cd k)))).
    { apply (dlim_sumn (mJ (fm M)) (fun k t => O k j * gamma_at M (upd x l t) k j * (upd x l t k - cost t k))).
      intros k Hk. eapply dlim_eq; [|apply dlim_mult; [apply dlim_scal; apply (DGm k Hk)|
        apply dlim_minus; [apply upd_derive|apply DCost; assumption]]].
      cbv beta. rewrite Ecost, upd_id. ring. }
    eapply dlim_eq; [|apply dlim_plus; [apply DCost; assumption|
       apply dlim_minus; [apply (dlim_mult _ _ _ _ _ DI DM)|apply (dlim_mult _ _ _ _ _ DI DS)]]].
    cbv beta. rewrite Ecost, !upd_id.
    unfold prices_jacobian, zeta_jacobian, lamda_inv_tensor, gamma_margin, gamma_margin_tensor, margin_by_prices,
      costs_by_prices, shares_by_prices, lamda_inv. rewrite !(reused_right M mentions _ x HM).
    change (capital_lamda (fm M) (fI M) (fw M) (probs (fm M) (update_delta M x) (update_mu M x)) (utility_derivatives M false x)) with (lamda_at M x).
    change (capital_gamma (fm M) (fI M) (fw M) (probs (fm M) (update_delta M x) (update_mu M x))
       (conds (fm M) (update_delta M x) (update_mu M x)) (utility_derivatives M false x)) with (gamma_at M x).
    destruct (Req_EM_T (lamda_at M x j) 0) as [Z|_]; [contradiction|].
    change ((if Nat.eqb j l then lamda_at M x j else 0) - gamma_at M x j l) with (shares_jacobian M x j l).
    rewrite sumn_plus.
    assert (EM : sumn (mJ (fm M)) (fun k => O k j * gamma_at M x k j * ((if Nat.eqb k l then 1 else 0) - cd k))
        = sumn (mJ (fm M)) (fun k => O k j * gamma_at M x k j *
            ((if Nat.eqb k l then 1 else 0) - (if constant then 0 else
               costs_derivatives S (costs_given constant M S shares0 costs x) (shares_at M x) k
               * ((if Nat.eqb k l then lamda_at M x k else 0) - gamma_at M x k l))))).
    { apply sumn_ext; intros k Hk. unfold cd, costs_given. destruct constant; reflexivity. }
    rewrite EM.
    assert (EC : cd j = (if constant then 0 else
               costs_derivatives S (costs_given constant M S shares0 costs x) (shares_at M x) j * shares_jacobian M x j l))
      by (unfold cd, costs_given; destruct constant; reflexivity).
    rewrite EC.
    set (T1 := sumn _ _). set (T2 := sumn _ _). set (T3 := sumn _ _).
    destruct constant; field; assumption.
Qed.

(** ** Clipping *)
Lemma contraction_safe m a safe bounds shares x j : valid_market m -> (j < mJ m)%nat ->
  contraction m a safe bounds shares x j = contraction m a true bounds shares x j.
Proof.
  intros V Hj. unfold contraction, market_shares. destruct safe; [reflexivity|].
  rewrite (sumn_ext (aI a) (fun i => fst (probabilities_linear m full_choice false x (amu a i)) j * aw a i)
     (fun i => fst (probabilities_linear m full_choice true x (amu a i)) j * aw a i)); [reflexivity|].
  intros i Hi. f_equal. symmetry. apply (safe_is_exact m full_choice x (amu a i) V). assumption.
Qed.

Lemma conds_safe m mu x i j safe : valid_market m -> (j < mJ m)%nat ->
  match snd (probabilities_linear m full_choice safe x (mu i)) with Some c => c j | None => 0 end = conds m x mu i j.
Proof.
  intros V Hj. destruct safe; [reflexivity|]. unfold conds.
  destruct (safe_is_exact m full_choice x (mu i) V) as [_ B].
  destruct (snd (probabilities_linear m full_choice true x (mu i))), (snd (probabilities_linear m full_choice false x (mu i)));
    try contradiction; [symmetry; apply B; assumption|reflexivity].
Qed.

Lemma probs_safe m mu x i j safe : valid_market m -> (j < mJ m)%nat ->
  fst (probabilities_linear m full_choice safe x (mu i)) j = probs m x mu i j.
Proof.
  intros V Hj. destruct safe; [reflexivity|]. symmetry. apply (safe_is_exact m full_choice x (mu i) V). assumption.
Qed.

Lemma unclipped_jacobian m a safe x j k : valid_market m -> (j < mJ m)%nat -> (k < mJ m)%nat ->
  clipped_jacobian m a safe (None, None) x j k
  = contraction_jacobian m (aI a) (aw a) (probs m x (amu a)) (conds m x (amu a)) j k.
Proof.
  intros V Hj Hk. unfold clipped_jacobian, contraction_jacobian. cbn [clip_share fst].
  assert (E1 : market_shares m a safe x j = sumn (aI a) (fun i => probs m x (amu a) i j * aw a i)).
  { unfold market_shares. apply sumn_ext; intros. rewrite (probs_safe m (amu a)) by assumption. reflexivity. }
  rewrite E1.
  rewrite (sumn_ext (aI a) (fun i => fst (probabilities_linear m full_choice safe x (amu a i)) j
       * (aw a i * fst (probabilities_linear m full_choice safe x (amu a i)) k))
     (fun i => probs m x (amu a) i j * (aw a i * probs m x (amu a) i k)))
    by (intros; rewrite !(probs_safe m (amu a)) by assumption; reflexivity).
  rewrite (sumn_ext (aI a) (fun i => match snd (probabilities_linear m full_choice safe x (amu a i)) with Some c => c j | None => 0 end
       * (aw a i * fst (probabilities_linear m full_choice safe x (amu a i)) k))
     (fun i => conds m x (amu a) i j * (aw a i * probs m x (amu a) i k)))
    by (intros; rewrite (probs_safe m (amu a)), (conds_safe m (amu a)) by assumption; reflexivity).
  reflexivity.
Qed.

Definition strictly_inside (bounds : option R * option R) (s : R) : Prop :=
  (forall lb, fst bounds = Some lb -> lb < s) /\ (forall ub, snd bounds = Some ub -> s < ub).

Lemma inside_unclipped bounds s : strictly_inside bounds s -> fst (clip_share bounds s) = s.
Proof.
  intros [A B]. unfold clip_share. destruct bounds as [[lb|] [ub|]]; cbn [fst snd] in *.
  - assert (lb < s) by (apply A; reflexivity). assert (s < ub) by (apply B; reflexivity).
    destruct (Rlt_dec s lb); [lra|]. destruct (Rlt_dec ub s); [lra|reflexivity].
  - assert (lb < s) by (apply A; reflexivity). destruct (Rlt_dec s lb); [lra|reflexivity].
  - assert (s < ub) by (apply B; reflexivity). destruct (Rlt_dec ub s); [lra|reflexivity].
  - reflexivity.
Qed.

Lemma inside_near bounds f x d : derivable_pt_lim f x d -> strictly_inside bounds (f x) ->
  exists e, 0 < e /\ forall y, Rabs (y - x) < e -> strictly_inside bounds (f y).
Proof.
  intros D [A B].
  assert (Cn : continuity_pt f x) by (apply derivable_continuous_pt; exists d; exact D).
  assert (LE : exists e, 0 < e /\ forall y, Rabs (y - x) < e -> forall lb, fst bounds = Some lb -> lb < f y).
  { destruct (fst bounds) as [lb|] eqn:E; [|exists 1; split; [lra|intros; discriminate]].
    specialize (A lb eq_refl). destruct (Cn (f x - lb)) as [e [He H]]; [lra|].
    exists e. split; [exact He|]. intros y Hy lb' Hlb. inversion Hlb; subst lb'.
    destruct (Req_EM_T x y) as [->|Hne]; [assumption|].
    assert (Hd := H y (conj (conj I Hne) Hy)). unfold R_dist in Hd. simpl in Hd. unfold R_dist in Hd.
    apply Rabs_def2 in Hd. lra. }
  assert (UE : exists e, 0 < e /\ forall y, Rabs (y - x) < e -> forall ub, snd bounds = Some ub -> f y < ub).
  { destruct (snd bounds) as [ub|] eqn:E; [|exists 1; split; [lra|intros; discriminate]].
    specialize (B ub eq_refl). destruct (Cn (ub - f x)) as [e [He H]]; [lra|].
    exists e. split; [exact He|]. intros y Hy ub' Hub. inversion Hub; subst ub'.
    destruct (Req_EM_T x y) as [->|Hne]; [assumption|].
    assert (Hd := H y (conj (conj I Hne) Hy)). simpl in Hd. unfold R_dist in Hd.
    apply Rabs_def2 in Hd. lra. }
  destruct LE as [e1 [H1 L]], UE as [e2 [H2 U]]. exists (Rmin e1 e2). split; [apply Rmin_pos; assumption|].
  intros y Hy. assert (Rmin e1 e2 <= e1) by apply Rmin_l. assert (Rmin e1 e2 <= e2) by apply Rmin_r.
  split; [apply L; lra|apply U; lra].
Qed.

Lemma clipped_derive m a safe bounds shares x j k :
  valid_market m -> valid_agents a -> eps_scale m = 1 -> (j < mJ m)%nat -> (k < mJ m)%nat ->
  strictly_inside bounds (market_shares m a safe x j) ->
  derivable_pt_lim (fun t => contraction m a safe bounds shares (upd x k t) j) (x k)
    (clipped_jacobian m a safe bounds x j k).
Proof.
  intros V VA E1 Hj Hk HI.
  assert (DS : exists d, derivable_pt_lim (fun t => market_shares m a safe (upd x k t) j) (x k) d).
  { eexists. apply dlim_ext with (fun t => sumn (aI a) (fun i => probs m (upd x k t) (amu a) i j * aw a i));
      [|exact (shares_by_delta m (aI a) (aw a) (amu a) x j k V Hj Hk)].
    intros t. unfold market_shares. apply sumn_ext; intros. rewrite (probs_safe m (amu a)) by assumption. reflexivity. }
  assert (HI' : strictly_inside bounds (market_shares m a safe (upd x k (x k)) j)) by (rewrite upd_id; exact HI).
  destruct DS as [d DS]. destruct (inside_near bounds _ _ _ DS HI') as [e [He Hy]].
  apply dlim_ext_near with (fun t => contraction m a true (None, None) shares (upd x k t) j) e.
  - assumption.
  - intros y Hye. rewrite <- (contraction_safe m a safe) by assumption. unfold contraction.
    rewrite (inside_unclipped bounds) by (apply Hy; assumption). reflexivity.
  - assert (EJ : clipped_jacobian m a safe bounds x j k = clipped_jacobian m a safe (None, None) x j k).
    { unfold clipped_jacobian. rewrite (inside_unclipped bounds) by assumption. reflexivity. }
    rewrite EJ, unclipped_jacobian by assumption. apply contraction_derive; assumption.
Qed.

(** A share below its bound: the fixed point only passes its own mean utility through, but the Jacobian
    still says that it responds as an unclipped one would. *)
Lemma clipped_refuted : exists m a bounds shares x j k,
  valid_market m /\ valid_agents a /\ eps_scale m = 1 /\ (j < mJ m)%nat /\ (k < mJ m)%nat /\
  (forall lb ub, fst bounds = Some lb -> snd bounds = Some ub -> lb < ub) /\
  ~ derivable_pt_lim (fun t => contraction m a true bounds shares (upd x k t) j) (x k)
      (clipped_jacobian m a true bounds x j k).
Proof.
  set (m := mk_market 1 0 (fun _ => O) false (fun _ => 0) 1).
  set (a := mk_agents 1 (fun _ => 1) (fun _ _ => 0)).
  assert (V : valid_market m) by (constructor; cbn; intros; try lia; try lra; try reflexivity).
  assert (VA : valid_agents a) by (split; [intros; cbn; lra|exists O; cbn; split; [lia|lra]]).
  exists m, a, (Some (3 / 4), None), (fun _ => / 2), (fun _ => 0), O, O.
  split; [exact V|]. split; [exact VA|]. split; [reflexivity|]. split; [cbn; lia|]. split; [cbn; lia|].
  split; [intros; discriminate|]. intros D.
  assert (ES : forall t, market_shares m a true (upd (fun _ => 0) 0 t) 0 = exp t / (1 + exp t)).
  { intros t. unfold market_shares. cbn [a aI aw amu sumn].
    destruct (probabilities_are_logit m true (upd (fun _ => 0) 0 t) (fun _ => 0) V) as [A _].
    rewrite (A eq_refl O) by (cbn; lia). unfold logit, all_goods. cbn [indR m mJ eps_scale sumn upd Nat.eqb].
    replace ((t + 0) / 1) with t by field. field. assert (H := exp_pos t); lra. }
  assert (P0 : market_shares m a true (fun _ => 0) 0 = / 2).
  { rewrite <- (upd_id (fun _ => 0) 0), ES, exp_0. lra. }
  assert (EJ : clipped_jacobian m a true (Some (3 / 4), None) (fun _ => 0) 0 0 = / 3).
  { unfold clipped_jacobian. rewrite P0. change (Nat.eqb (mH m) 0) with true. cbv iota.
    assert (PP : fst (probabilities_linear m full_choice true (fun _ => 0) (amu a 0)) 0%nat = / 2).
    { unfold market_shares in P0. cbn [a aI aw sumn] in P0. lra. }
    unfold clip_share. cbn [a aI aw sumn]. destruct (Rlt_dec (/ 2) (3 / 4)); [|lra]. cbn [fst].
    rewrite PP. lra. }
  rewrite EJ in D.
  assert (D2 : derivable_pt_lim (fun t => contraction m a true (Some (3 / 4), None) (fun _ => / 2) (upd (fun _ => 0) 0 t) 0) 0 1).
  { assert (D0 : exists d, derivable_pt_lim (fun t => market_shares m a true (upd (fun _ => 0) 0 t) 0) 0 d)
      by (eexists; exact (shares_by_delta m (aI a) (aw a) (amu a) (fun _ => 0) 0 0 V ltac:(cbn; lia) ltac:(cbn; lia))).
    destruct D0 as [d D0].
    destruct (inside_near (None, Some (3 / 4)) _ _ _ D0) as [e [He H]].
    { split; [intros; discriminate|]. intros ub Hub; inversion Hub; subst. rewrite upd_id, P0. lra. }
    apply dlim_ext_near with (fun t => t + ln (/ 2) - ln (3 / 4)) e; [assumption| |].
    - intros y Hy. unfold contraction. change (Nat.eqb (mH m) 0) with true. cbv iota.
      destruct (H y Hy) as [_ U]. specialize (U _ eq_refl). unfold clip_share.
      destruct (Rlt_dec _ (3 / 4)); [|lra]. cbn [fst upd Nat.eqb]. reflexivity.
    - eapply dlim_eq; [|apply dlim_minus; [apply dlim_plus; [apply dlim_id|apply dlim_const]|apply dlim_const]]. ring. }
  assert (E := dlim_unique _ _ _ _ D D2). lra.
Qed.

(** ** The nonlinear contraction *)
Lemma plain_ratio m a safe x i j : valid_market m -> mH m = O -> eps_scale m = 1 -> (j < mJ m)%nat ->
  exp (x j) * nonlinear_probabilities m a safe true (fun k => exp (x k)) i j = probs m x (amu a) i j.
Proof.
  intros V HH He Hj.
  assert (EP : probs m x (amu a) i j = logit (mJ m) all_goods true (utility m x (amu a i)) j).
  { unfold probs. rewrite full_choice_with.
    destruct (probabilities_spec m true true None None None x (amu a i) V) as [P _].
    destruct (P HH) as [P1 _]. rewrite (P1 j Hj), included_all. reflexivity. }
  rewrite EP. clear EP.
  unfold nonlinear_probabilities, probabilities_nonlinear, finish_probabilities. rewrite HH.
  cbn [Nat.eqb fst]. unfold scale. cbn [c_eliminate_outside full_choice]. rewrite HH. cbn [Nat.eqb].
  unfold restrict_choice; cbn [c_availability c_eliminate c_eliminate_ids full_choice].
  unfold logit, all_goods, utility. rewrite He. cbn [indR].
  assert (ES : forall r, sumn (mJ m) (fun k => exp (x k) * exp (amu a i k - r))
      = exp (- r) * sumn (mJ m) (fun k => exp ((x k + amu a i k) / 1))).
  { intros r. rewrite <- sumn_scal. apply sumn_ext. intros k _. rewrite <- !exp_plus. f_equal. field. }
  assert (Hpos : 0 < 1 + sumn (mJ m) (fun k => exp ((x k + amu a i k) / 1))).
  { assert (0 <= sumn (mJ m) (fun k => exp ((x k + amu a i k) / 1))); [|lra].
    apply sumn_nonneg; intros; left; apply exp_pos. }
  destruct safe.
  - set (r := Rmax _ 0). rewrite ES.
    replace (exp (- r) + exp (- r) * sumn (mJ m) (fun k => exp ((x k + amu a i k) / 1)))
      with (exp (- r) * (1 + sumn (mJ m) (fun k => exp ((x k + amu a i k) / 1)))) by ring.
    set (D := 1 + _) in *.
    assert (exp (- r) <> 0) by (apply Rgt_not_eq, exp_pos).
    replace (exp ((x j + amu a i j) / 1)) with (exp (x j) * (exp (amu a i j - r) / exp (- r))).
    2: { unfold Rdiv at 1. rewrite <- exp_Ropp, <- !exp_plus. f_equal. field. }
    field. repeat split; try assumption; try lra.
  - replace (sumn (mJ m) (fun k => exp (x k) * exp (amu a i k)))
      with (sumn (mJ m) (fun k => exp ((x k + amu a i k) / 1))).
    2: { apply sumn_ext; intros k _. rewrite <- exp_plus. f_equal. field. }
    set (D := 1 + _) in *.
    replace (exp ((x j + amu a i j) / 1)) with (exp (x j) * exp (amu a i j)).
    2: { rewrite <- !exp_plus. f_equal. field. }
    field. lra.
Qed.

Lemma nested_probabilities m a x i j : valid_market m -> mH m <> O -> eps_scale m = 1 -> (j < mJ m)%nat ->
  nonlinear_probabilities m a false false (fun k => exp (x k)) i j = probs m x (amu a) i j /\
  nonlinear_conditionals m a false (fun k => exp (x k)) i j = conds m x (amu a) i j.
Proof.
  intros V HH He Hj. rewrite <- (probs_safe m (amu a) x i j false V Hj), <- (conds_safe m (amu a) x i j false V Hj).
  unfold nonlinear_probabilities, nonlinear_conditionals, probabilities_nonlinear, probabilities_linear.
  assert (EU : forall k, (if Nat.eqb (mH m) 0 then exp (x k) * exp (amu a i k)
               else Rpower (exp (x k) * exp (amu a i k)) (1 / (1 - rho m k))) = exp (scaled_utilities m x (amu a i) k)).
  { intros k. destruct (Nat.eqb_spec (mH m) 0) as [|_]; [contradiction|].
    unfold scaled_utilities. destruct (Nat.eqb_spec (mH m) 0) as [|_]; [contradiction|].
    rewrite He. destruct (Req_EM_T 1 1); [|lra].
    rewrite <- exp_plus. unfold Rpower. rewrite ln_exp. f_equal. unfold Rdiv. ring. }
  replace (fun k => if Nat.eqb (mH m) 0 then exp (x k) * exp (amu a i k)
               else Rpower (exp (x k) * exp (amu a i k)) (1 / (1 - rho m k)))
    with (fun k => exp (scaled_utilities m x (amu a i) k))
    by (apply functional_extensionality; intros k; symmetry; apply EU).
  split; reflexivity.
Qed.

(** Conditional probabilities are not affected by safeguards. *)
Lemma safe_conditionals m a safe x i j : valid_market m -> mH m <> O -> eps_scale m = 1 -> (j < mJ m)%nat ->
  nonlinear_conditionals m a safe (fun k => exp (x k)) i j = conds m x (amu a) i j.
Proof.
  intros V HH He Hj. destruct (nested_probabilities m a x i j V HH He Hj) as [_ <-]. destruct safe; [|reflexivity].
  unfold nonlinear_conditionals, probabilities_nonlinear, finish_probabilities. destruct (Nat.eqb_spec (mH m) 0) as [|_]; [contradiction|].
  cbn [snd]. set (r := Rmax _ 0).
  assert (E : forall k, restrict_choice full_choice (fun j0 => Rpower (exp (x j0) * exp (amu a i j0 - r)) (1 / (1 - rho m j0))) k
     = exp (- r / (1 - rho m k)) * restrict_choice full_choice (fun j0 => Rpower (exp (x j0) * exp (amu a i j0)) (1 / (1 - rho m j0))) k).
  { intro k. unfold restrict_choice, full_choice. cbn [c_availability c_eliminate c_eliminate_ids]. unfold Rpower. rewrite <- !exp_plus, !ln_exp. f_equal. unfold Rdiv. ring. }
  rewrite E.
  assert (G : gsum m (restrict_choice full_choice (fun j0 => Rpower (exp (x j0) * exp (amu a i j0 - r)) (1 / (1 - rho m j0)))) (gid m j)
     = exp (- r / (1 - rho m j)) * gsum m (restrict_choice full_choice (fun j0 => Rpower (exp (x j0) * exp (amu a i j0)) (1 / (1 - rho m j0)))) (gid m j)).
  { unfold gsum. rewrite <- sumn_scal. apply sumn_ext. intros k Hk. destruct (Nat.eqb_spec (gid m k) (gid m j)) as [e|_]; [|ring]. rewrite E. unfold rho. rewrite e. reflexivity. }
  rewrite G. set (c := exp _). assert (Hc : 0 < c) by apply exp_pos. set (g := gsum _ _ _). unfold div_or_zero.
  destruct (Req_EM_T (c * g) 0) as [Z|Z], (Req_EM_T g 0) as [Z'|Z']; try reflexivity.
  - apply Rmult_integral in Z. exfalso. lra.
  - rewrite Z' in Z. lra.
  - field. split; lra.
Qed.

Lemma nonlinear_conditionals_within m a safe delta i j : valid_market m -> mH m <> O -> eps_scale m = 1 -> (j < mJ m)%nat ->
  nonlinear_conditionals m a safe (fun k => exp (delta k)) i j
  = within_group (mJ m) (gid m) (grho m) all_goods (fun k => delta k + amu a i k) j.
Proof.
  intros V HH He Hj. rewrite safe_conditionals by assumption. unfold conds. rewrite full_choice_with.
  destruct (probabilities_spec m true true None None None delta (amu a i) V) as [_ B]. destruct (B HH) as [_ (con & -> & E)].
  rewrite E by exact Hj. rewrite included_all. f_equal. apply functional_extensionality. intro k. unfold utility. rewrite He. field.
Qed.

Lemma nonlinear_jacobian_linear m a safe shares x j k :
  valid_market m -> valid_agents a -> eps_scale m = 1 -> (mH m <> O -> safe = false) ->
  (forall k, (k < mJ m)%nat -> 0 < shares k) -> (j < mJ m)%nat -> (k < mJ m)%nat ->
  nonlinear_jacobian m a safe shares (fun k => exp (x k)) j k
  = exp (contraction m a safe (None, None) shares x j) / exp (x k)
    * contraction_jacobian m (aI a) (aw a) (probs m x (amu a)) (conds m x (amu a)) j k.
Proof.
  intros V VA He HS Hs Hj Hk. unfold nonlinear_jacobian, contraction_jacobian.
  rewrite nonlinear_equivalent by assumption.
  assert (Hp : 0 < sumn (aI a) (fun i => probs m x (amu a) i j * aw a i)) by (apply (market_shares_pos m a true x j); assumption).
  assert (Hx := exp_pos (x k)).
  destruct (Nat.eqb_spec (mH m) 0) as [HH|HH].
  - assert (E1 : exp (x j) * sumn (aI a) (fun i => nonlinear_probabilities m a safe true (fun k => exp (x k)) i j * aw a i)
      = sumn (aI a) (fun i => probs m x (amu a) i j * aw a i)).
    { rewrite <- sumn_scal. apply sumn_ext; intros i Hi. rewrite <- (plain_ratio m a safe x i j V HH He Hj). ring. }
    rewrite E1.
    rewrite (sumn_ext (aI a) (fun i => exp (x j) * nonlinear_probabilities m a safe true (fun k => exp (x k)) i j *
        (aw a i * (exp (x k) * nonlinear_probabilities m a safe true (fun k => exp (x k)) i k)))
       (fun i => probs m x (amu a) i j * (aw a i * probs m x (amu a) i k))).
    + field. split; lra.
    + intros i Hi. rewrite (plain_ratio m a safe x i j V HH He Hj), (plain_ratio m a safe x i k V HH He Hk). reflexivity.
  - rewrite (HS HH).
    rewrite (sumn_ext (aI a) (fun i => nonlinear_probabilities m a false false (fun k => exp (x k)) i j * aw a i)
       (fun i => probs m x (amu a) i j * aw a i))
      by (intros i Hi; destruct (nested_probabilities m a x i j V HH He Hj) as [-> _]; reflexivity).
    rewrite (sumn_ext (aI a) (fun i => nonlinear_probabilities m a false false (fun k => exp (x k)) i j
         * (aw a i * nonlinear_probabilities m a false false (fun k => exp (x k)) i k))
       (fun i => probs m x (amu a) i j * (aw a i * probs m x (amu a) i k)))
      by (intros i Hi; destruct (nested_probabilities m a x i j V HH He Hj) as [-> _];
          destruct (nested_probabilities m a x i k V HH He Hk) as [-> _]; reflexivity).
    rewrite (sumn_ext (aI a) (fun i => nonlinear_conditionals m a false (fun k => exp (x k)) i j
         * (aw a i * nonlinear_probabilities m a false false (fun k => exp (x k)) i k))
       (fun i => conds m x (amu a) i j * (aw a i * probs m x (amu a) i k)))
      by (intros i Hi; destruct (nested_probabilities m a x i j V HH He Hj) as [_ ->];
          destruct (nested_probabilities m a x i k V HH He Hk) as [-> _]; reflexivity).
    field. split; lra.
Qed.

Lemma nonlinear_derive m a safe shares x j k :
  valid_market m -> valid_agents a -> eps_scale m = 1 -> (mH m <> O -> safe = false) ->
  (forall k, (k < mJ m)%nat -> 0 < shares k) -> (j < mJ m)%nat -> (k < mJ m)%nat ->
  derivable_pt_lim (fun t => nonlinear_contraction m a safe shares (upd (fun k => exp (x k)) k t) j) (exp (x k))
    (nonlinear_jacobian m a safe shares (fun k => exp (x k)) j k).
Proof.
  intros V VA He HS Hs Hj Hk. rewrite nonlinear_jacobian_linear by assumption.
  assert (Hx := exp_pos (x k)).
  apply dlim_ext_near with (fun t => exp (contraction m a true (None, None) shares (upd x k (ln t)) j)) (exp (x k)).
  - assumption.
  - intros y Hy. assert (0 < y) by (apply Rabs_def2 in Hy; lra).
    rewrite <- (contraction_safe m a safe), <- nonlinear_equivalent by assumption. f_equal.
    apply functional_extensionality; intros c. unfold upd. destruct (Nat.eqb c k); [rewrite exp_ln by assumption|]; reflexivity.
  - assert (DC := contraction_derive m V a shares x j k VA He Hj Hk).
    assert (DL : derivable_pt_lim (fun t => contraction m a true (None, None) shares (upd x k (ln t)) j) (exp (x k))
       (contraction_jacobian m (aI a) (aw a) (probs m x (amu a)) (conds m x (amu a)) j k * (1 / exp (x k)))).
    { apply (derivable_pt_lim_comp ln (fun t => contraction m a true (None, None) shares (upd x k t) j)).
      - eapply dlim_eq; [|apply derivable_pt_lim_ln; assumption]. field. lra.
      - rewrite ln_exp. exact DC. }
    eapply dlim_eq; [|apply dlim_exp; exact DL]. cbv beta. rewrite ln_exp, upd_id, (contraction_safe m a safe) by assumption.
    field. lra.
Qed.
