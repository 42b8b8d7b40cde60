(** Lemmas about simulated prices and shares. *)
From Coq Require Import Reals Lra Lia List Bool Arith.
From Verif Require Import Base DemandSpec DemandModel DemandProofs DemandShares DemandDeriv
  SupplyModel SupplySpec SupplyProofs DerivModel DerivProofs DerivCurve DerivMore EndoModel EndoSpec.
Import ListNotations.
Local Open Scope R_scope.

(* ---------- nonsingularity ---------- *)

Lemma abs_sumn n f : Rabs (sumn n f) <= sumn n (fun k => Rabs (f k)).
Proof.
  induction n as [|n IH]; simpl; [rewrite Rabs_R0; lra|].
  eapply Rle_trans; [apply Rabs_triang|]. lra.
Qed.

Lemma dominant_nonsingular J A :
  (forall j, (j < J)%nat -> sumn J (fun k => if Nat.eqb k j then 0 else Rabs (A j k)) < Rabs (A j j)) ->
  nonsingular J A.
Proof.
  intros D v H j Hj. destruct J as [|n]; [lia|].
  destruct (maxn_attained n (fun k => Rabs (v k))) as [k [Hk E]].
  set (m := maxn n (fun k => Rabs (v k))) in *.
  assert (G : forall l, (l < S n)%nat -> Rabs (v l) <= m).
  { intros l Hl. apply (maxn_ge n (fun k => Rabs (v k))). lia. }
  assert (Hm : m <= 0).
  { apply Rnot_lt_le. intros P. assert (Hk' : (k < S n)%nat) by lia.
    assert (Z := H k Hk').
    assert (Sp : sumn (S n) (fun l => A k l * v l)
               = A k k * v k + sumn (S n) (fun l => if Nat.eqb l k then 0 else A k l * v l)).
    { rewrite <- (sumn_delta (S n) k (fun l => A k l * v l) Hk'). rewrite <- sumn_plus.
      apply sumn_ext. intros l _. destruct (Nat.eqb l k); ring. }
    rewrite Sp in Z.
    assert (Q : Rabs (A k k) * m <= sumn (S n) (fun l => if Nat.eqb l k then 0 else Rabs (A k l)) * m).
    { rewrite E at 1. rewrite <- Rabs_mult.
      replace (A k k * v k) with (- sumn (S n) (fun l => if Nat.eqb l k then 0 else A k l * v l)) by lra.
      rewrite Rabs_Ropp. eapply Rle_trans; [apply abs_sumn|].
      rewrite <- sumn_scal_r. apply sumn_le. intros l Hl. destruct (Nat.eqb l k).
      - rewrite Rabs_R0. lra.
      - rewrite Rabs_mult. apply Rmult_le_compat_l; [apply Rabs_pos|apply G; exact Hl]. }
    assert (Dk := D k Hk').
    assert (X := Rmult_lt_compat_r m _ _ P Dk). lra. }
  assert (Z := G j Hj). assert (P := Rabs_pos (v j)). 
  destruct (Req_dec (v j) 0) as [Z0|Z0]; [exact Z0|]. apply Rabs_pos_lt in Z0. lra.
Qed.

Lemma probs_total m delta mu i : valid_market m -> sumn (mJ m) (probs m delta mu i) < 1.
Proof.
  intros V. rewrite (sumn_ext (mJ m) _ (nested (mJ m) (grpn m) (gidx m) (grhox m) (included None None None) true (utility m delta (mu i)))).
  - rewrite nested_total by (intros; apply gidx_lt; assumption). cbn [indR]. apply ratio_lt_1. apply weights_nonneg.
  - intros j Hj. unfold probs. rewrite full_choice_with. apply probabilities_nested; assumption.
Qed.

Lemma conds_total m delta mu i j : valid_market m -> mH m <> O -> (j < mJ m)%nat ->
  sumn (mJ m) (fun k => membership m k j * conds m delta mu i k) = 1.
Proof.
  intros V HH Hj.
  rewrite (sumn_ext _ _ (fun k => if Nat.eqb (gid m k) (gid m j)
             then within_group (mJ m) (gid m) (grho m) all_goods (utility m delta (mu i)) k else 0)).
  - rewrite within_group_total.
    replace (existsb _ _) with true; [reflexivity|]. symmetry. apply existsb_exists. exists j.
    split; [apply in_seq; lia|]. unfold all_goods. rewrite Nat.eqb_refl. reflexivity.
  - intros k Hk. rewrite conds_cond, cond_spec by assumption. unfold membership.
    destruct (Nat.eqb (gid m k) (gid m j)); ring.
Qed.

Lemma conds_nonneg m delta mu i j : valid_market m -> (j < mJ m)%nat -> 0 <= conds m delta mu i j.
Proof.
  intros V Hj. rewrite conds_cond. destruct (Nat.eq_dec (mH m) 0) as [HH|HH].
  - rewrite cond_plain by assumption. lra.
  - rewrite cond_spec by assumption. left. apply within_pos; [assumption|reflexivity].
Qed.

(** Conditions on demand: everyone dislikes higher prices. *)
Definition price_averse (M : full_market) (x : nat -> R) : Prop :=
  (0 < fI M)%nat /\ (forall i, (i < fI M)%nat -> 0 < fw M i) /\
  (forall i j, (i < fI M)%nat -> (j < mJ (fm M))%nat -> utility_derivatives M false x i j < 0) /\
  (mH (fm M) <> O -> forall h, (h < mH (fm M))%nat -> 0 <= grho (fm M) h).

Lemma pair_negative M x i j k : valid_market (fm M) -> price_averse M x ->
  (i < fI M)%nat -> (j < mJ (fm M))%nat -> (k < mJ (fm M))%nat ->
  fw M i * (probs (fm M) (update_delta M x) (update_mu M x) i k * utility_derivatives M false x i k) < 0.
Proof.
  intros V [_ [W [U _]]] Hi Hj Hk.
  assert (A := probs_pos (fm M) (update_delta M x) (update_mu M x) i k V Hk).
  assert (B := U i k Hi Hk). assert (C := W i Hi).
  set (a := probs _ _ _ _ _) in *. set (b := utility_derivatives _ _ _ _ _) in *.
  assert (0 < fw M i * (a * - b)); [|lra]. apply Rmult_lt_0_compat; [lra|apply Rmult_lt_0_compat; lra].
Qed.

(** Products are substitutes. *)
Lemma cross_positive M x j k : valid_market (fm M) -> price_averse M x ->
  (j < mJ (fm M))%nat -> (k < mJ (fm M))%nat -> j <> k -> 0 < shares_jacobian M x j k.
Proof.
  intros V PA Hj Hk Hn. unfold shares_jacobian, jacobian_of.
  apply Nat.eqb_neq in Hn. rewrite Hn. unfold capital_gamma.
  set (g := sumn (fI M) (fun i => probs _ _ _ i j * _)).
  assert (Hg : 0 < - g).
  { unfold g. rewrite <- sumn_opp. destruct PA as [HI PA']. assert (PA : price_averse M x) by (split; assumption).
    assert (Q : forall i, (i < fI M)%nat -> 0 < - (probs (fm M) (update_delta M x) (update_mu M x) i j *
       (fw M i * (probs (fm M) (update_delta M x) (update_mu M x) i k * utility_derivatives M false x i k)))).
    { intros i Hi. assert (A := probs_pos (fm M) (update_delta M x) (update_mu M x) i j V Hj).
      assert (B := pair_negative M x i j k V PA Hi Hj Hk).
      set (a := probs _ _ _ i j) in *. set (b := fw M i * _) in *.
      assert (0 < a * - b) by (apply Rmult_lt_0_compat; lra). lra. }
    apply sumn_pos; [intros; left; auto|]. exists O. auto. }
  destruct (Nat.eqb_spec (mH (fm M)) 0) as [HH|HH]; [lra|].
  set (g2 := sumn (fI M) (fun i => conds _ _ _ i j * _)).
  assert (Hg2 : 0 <= - g2).
  { unfold g2. rewrite <- sumn_opp. apply sumn_nonneg. intros i Hi.
    assert (A := conds_nonneg (fm M) (update_delta M x) (update_mu M x) i j V Hj).
    assert (B := pair_negative M x i j k V PA Hi Hj Hk).
    set (a := conds _ _ _ i j) in *. set (b := fw M i * _) in *.
    assert (0 <= a * - b) by (apply Rmult_le_pos; lra). lra. }
  assert (Hr : 0 <= rho (fm M) j < 1).
  { unfold rho. assert (L := vm_gid _ V HH j Hj). split; [apply PA; assumption|apply (vm_rho _ V HH); assumption]. }
  assert (Hc : 0 <= rho (fm M) j / (1 - rho (fm M) j)).
  { unfold Rdiv. apply Rmult_le_pos; [lra|]. left. apply Rinv_0_lt_compat. lra. }
  assert (Hm : 0 <= membership (fm M) j k) by (unfold membership; destruct (Nat.eqb (gid (fm M) j) (gid (fm M) k)); lra).
  assert (0 <= rho (fm M) j / (1 - rho (fm M) j) * membership (fm M) j k * - g2).
  { apply Rmult_le_pos; [apply Rmult_le_pos|]; assumption. }
  lra.
Qed.

(** A price increase loses customers to the outside good. *)
Lemma column_total M x k : valid_market (fm M) -> price_averse M x -> (k < mJ (fm M))%nat ->
  sumn (mJ (fm M)) (fun j => shares_jacobian M x j k) < 0.
Proof.
  intros V PA Hk.
  assert (E : sumn (mJ (fm M)) (fun j => shares_jacobian M x j k)
    = sumn (fI M) (fun i => fw M i * (probs (fm M) (update_delta M x) (update_mu M x) i k * utility_derivatives M false x i k)
                            * (1 - sumn (mJ (fm M)) (probs (fm M) (update_delta M x) (update_mu M x) i)))).
  { unfold shares_jacobian, jacobian_of. rewrite sumn_minus.
    rewrite (sumn_delta (mJ (fm M)) k (fun j => capital_lamda (fm M) (fI M) (fw M)
      (probs (fm M) (update_delta M x) (update_mu M x)) (utility_derivatives M false x) j) Hk).
    unfold capital_lamda, capital_gamma.
    set (P := probs (fm M) (update_delta M x) (update_mu M x)). set (C := conds (fm M) (update_delta M x) (update_mu M x)).
    set (U := utility_derivatives M false x).
    assert (S1 : sumn (mJ (fm M)) (fun j => sumn (fI M) (fun i => P i j * (fw M i * (P i k * U i k))))
               = sumn (fI M) (fun i => fw M i * (P i k * U i k) * sumn (mJ (fm M)) (P i))).
    { rewrite sumn_swap. apply sumn_ext. intros i _. rewrite <- sumn_scal. apply sumn_ext. intros; ring. }
    destruct (Nat.eqb_spec (mH (fm M)) 0) as [HH|HH].
    - rewrite S1, <- sumn_minus. apply sumn_ext. intros; ring.
    - rewrite sumn_plus, S1.
      assert (Hr : rho (fm M) k < 1).
      { unfold rho. apply (vm_rho _ V HH). apply (vm_gid _ V HH); assumption. }
      assert (S2 : sumn (mJ (fm M)) (fun j => rho (fm M) j / (1 - rho (fm M) j) * membership (fm M) j k *
                      sumn (fI M) (fun i => C i j * (fw M i * (P i k * U i k))))
               = sumn (fI M) (fun i => rho (fm M) k / (1 - rho (fm M) k) * (fw M i * (P i k * U i k)))).
      { transitivity (sumn (mJ (fm M)) (fun j => sumn (fI M) (fun i =>
            rho (fm M) k / (1 - rho (fm M) k) * (fw M i * (P i k * U i k)) * (membership (fm M) j k * C i j)))).
        - apply sumn_ext. intros j Hj. rewrite <- sumn_scal. apply sumn_ext. intros i _.
          unfold membership, rho. destruct (Nat.eqb_spec (gid (fm M) j) (gid (fm M) k)) as [->|]; ring.
        - rewrite sumn_swap. apply sumn_ext. intros i _. rewrite sumn_scal. unfold C.
          rewrite conds_total by assumption. ring. }
      rewrite S2. unfold Rdiv at 1. rewrite <- sumn_scal_r.
      rewrite <- sumn_plus, <- sumn_minus. apply sumn_ext. intros i _. field. lra. }
  rewrite E. destruct PA as [HI PA']. assert (PA : price_averse M x) by (split; assumption).
  assert (Q : forall i, (i < fI M)%nat -> 0 < - (fw M i * (probs (fm M) (update_delta M x) (update_mu M x) i k * utility_derivatives M false x i k)
                            * (1 - sumn (mJ (fm M)) (probs (fm M) (update_delta M x) (update_mu M x) i)))).
  { intros i Hi. assert (A := probs_total (fm M) (update_delta M x) (update_mu M x) i V).
    assert (B := pair_negative M x i k k V PA Hi Hk Hk).
    set (a := sumn (mJ (fm M)) (probs (fm M) (update_delta M x) (update_mu M x) i)) in *. set (b := fw M i * _) in *.
    assert (0 < - b * (1 - a)) by (apply Rmult_lt_0_compat; lra). lra. }
  assert (0 < - sumn (fI M) (fun i => fw M i * (probs (fm M) (update_delta M x) (update_mu M x) i k * utility_derivatives M false x i k)
                            * (1 - sumn (mJ (fm M)) (probs (fm M) (update_delta M x) (update_mu M x) i)))); [|lra].
  rewrite <- sumn_opp. apply sumn_pos; [intros; left; auto|]. exists O. auto.
Qed.

Lemma own_negative M x j : valid_market (fm M) -> price_averse M x -> (j < mJ (fm M))%nat -> shares_jacobian M x j j < 0.
Proof.
  intros V PA Hj. assert (T := column_total M x j V PA Hj).
  assert (E : sumn (mJ (fm M)) (fun k => shares_jacobian M x k j)
    = shares_jacobian M x j j + sumn (mJ (fm M)) (fun k => if Nat.eqb k j then 0 else shares_jacobian M x k j)).
  { rewrite <- (sumn_delta (mJ (fm M)) j (fun k => shares_jacobian M x k j) Hj), <- sumn_plus.
    apply sumn_ext. intros k _. destruct (Nat.eqb k j); ring. }
  assert (0 <= sumn (mJ (fm M)) (fun k => if Nat.eqb k j then 0 else shares_jacobian M x k j)); [|lra].
  apply sumn_nonneg. intros k Hk. destruct (Nat.eqb_spec k j); [lra|]. left. apply cross_positive; auto.
Qed.

Lemma capital_delta_nonsingular M O x : valid_market (fm M) -> price_averse M x -> cooperation (mJ (fm M)) O ->
  nonsingular (mJ (fm M)) (capital_delta M O x).
Proof.
  intros V PA [O1 O2]. apply dominant_nonsingular. intros j Hj.
  rewrite capital_delta_jacobian, (O1 j Hj).
  assert (Nj := own_negative M x j V PA Hj).
  replace (- (1 * shares_jacobian M x j j)) with (- shares_jacobian M x j j) by ring.
  rewrite Rabs_right by lra.
  assert (T := column_total M x j V PA Hj).
  assert (E : sumn (mJ (fm M)) (fun k => shares_jacobian M x k j)
    = shares_jacobian M x j j + sumn (mJ (fm M)) (fun k => if Nat.eqb k j then 0 else shares_jacobian M x k j)).
  { rewrite <- (sumn_delta (mJ (fm M)) j (fun k => shares_jacobian M x k j) Hj), <- sumn_plus.
    apply sumn_ext. intros k _. destruct (Nat.eqb k j); ring. }
  apply Rle_lt_trans with (sumn (mJ (fm M)) (fun k => if Nat.eqb k j then 0 else shares_jacobian M x k j)); [|lra].
  apply sumn_le. intros k Hk. destruct (Nat.eqb_spec k j) as [->|Hn]; [lra|].
  rewrite capital_delta_jacobian, Rabs_Ropp, Rabs_mult.
  assert (C := cross_positive M x k j V PA Hk Hj Hn). assert (B := O2 j k Hj Hk).
  rewrite (Rabs_right (O j k)), (Rabs_right (shares_jacobian M x k j)) by lra.
  assert (0 <= (1 - O j k) * shares_jacobian M x k j) by (apply Rmult_le_pos; lra). lra.
Qed.

(** Markups are determined by the markup equation. *)
Lemma markups_unique M O x s m1 m2 : valid_market (fm M) -> price_averse M x -> cooperation (mJ (fm M)) O ->
  markup_equation (mJ (fm M)) O (shares_jacobian M x) s m1 ->
  markup_equation (mJ (fm M)) O (shares_jacobian M x) s m2 ->
  forall j, (j < mJ (fm M))%nat -> m1 j = m2 j.
Proof.
  intros V PA C H1 H2 j Hj.
  assert (Z : (fun k => m1 k - m2 k) j = 0); [|cbv beta in Z; lra].
  apply (capital_delta_nonsingular M O x V PA C (fun k => m1 k - m2 k)); [|exact Hj]. intros l Hl.
  specialize (H1 l Hl). specialize (H2 l Hl).
  rewrite (sumn_ext _ _ (fun k => O l k * shares_jacobian M x k l * m2 k - O l k * shares_jacobian M x k l * m1 k)).
  - rewrite sumn_minus. lra.
  - intros k Hk. rewrite capital_delta_jacobian. ring.
Qed.

Lemma costs_unique solve solve' M O observed : valid_market (fm M) -> price_averse M (var0 M) -> cooperation (mJ (fm M)) O ->
  exact_solver (mJ (fm M)) solve -> exact_solver (mJ (fm M)) solve' ->
  snd (compute_costs solve M O observed) = false -> snd (compute_costs solve' M O observed) = false ->
  forall j, (j < mJ (fm M))%nat -> fst (compute_costs solve M O observed) j = fst (compute_costs solve' M O observed) j.
Proof.
  intros V PA C S S' E E' j Hj.
  assert (H := markups_unique M O (var0 M) observed _ _ V PA C
    (costs_markup_equation solve M O observed S E) (costs_markup_equation solve' M O observed S' E') j Hj).
  cbv beta in H. lra.
Qed.

(* ---------- recovering structural errors ---------- *)

(** Columns that do not name the variable do not depend on it. *)
Definition honest (K : nat) (X : nat -> column) : Prop :=
  forall k j x y, (k < K)%nat -> uses (X k) = false -> ev (X k) j x = ev (X k) j y.

Lemma delta_at M xi x j : honest (fK1 M) (fX1 M) -> (forall j, delta0 M j = initial_delta M xi j) ->
  update_delta M x j = sumn (fK1 M) (fun k => ev (fX1 M k) j (x j) * fbeta M k) + xi j.
Proof.
  intros Hn HD. unfold update_delta. rewrite HD. unfold initial_delta.
  rewrite (sumn_ext (fK1 M) (fun k => if uses (fX1 M k) then _ else 0)
     (fun k => ev (fX1 M k) j (x j) * fbeta M k - ev (fX1 M k) j (var0 M j) * fbeta M k)).
  - rewrite sumn_minus. ring.
  - intros k Hk. destruct (uses (fX1 M k)) eqn:E; [ring|]. rewrite (Hn k j (x j) (var0 M j) Hk E). ring.
Qed.

Lemma xi_recovered M xi x safe delta :
  valid_market (fm M) -> valid_agents (agents_with M (update_mu M x)) ->
  (mH (fm M) <> O -> forall h, (h < mH (fm M))%nat -> 0 <= grho (fm M) h) ->
  honest (fK1 M) (fX1 M) -> (forall j, delta0 M j = initial_delta M xi j) ->
  (forall j, (j < mJ (fm M))%nat ->
     market_shares (fm M) (agents_with (market_on M x delta) (compute_mu (market_on M x delta) (X2_0 (market_on M x delta)))) safe delta j
     = simulated_shares M x j) ->
  forall j, (j < mJ (fm M))%nat ->
    delta j = simulated_delta M x j /\ residual_xi (market_on M x delta) delta j = xi j.
Proof.
  intros V VA R Hn HD H j Hj.
  assert (E : forall j, (j < mJ (fm M))%nat -> delta j = update_delta M x j).
  { apply (shares_injective (fm M) (agents_with M (update_mu M x)) safe delta (update_delta M x) V VA R).
    intros k Hk. specialize (H k Hk). unfold agents_with, market_on in H. cbn [fI fw X2_0] in H.
    transitivity (simulated_shares M x k); [exact H|].
    unfold simulated_shares, shares_at, market_shares. cbn [aI aw amu agents_with]. apply sumn_ext. intros i Hi. f_equal.
    unfold probs. destruct safe; [reflexivity|].
    destruct (safe_is_exact (fm M) full_choice (update_delta M x) (update_mu M x i) V) as [Sf _].
    apply Sf. exact Hk. }
  split; [apply E; exact Hj|]. unfold residual_xi. rewrite (E j Hj), (delta_at M xi x j Hn HD).
  cbn [fK1 fX1 fbeta var0 market_on]. ring.
Qed.

Lemma market_on_delta M x delta j : update_delta (market_on M x delta) x j = delta j.
Proof.
  unfold update_delta. cbn [delta0 fK1 fX1 fbeta var0 market_on].
  rewrite (sumn_ext _ _ (fun _ => 0)); [rewrite sumn_zero; ring|].
  intros k _. destruct (uses (fX1 M k)); ring.
Qed.

Lemma market_on_mu M x delta i j : update_mu (market_on M x delta) x i j = update_mu M x i j.
Proof.
  unfold update_mu, compute_mu. cbn [fK2 fX2 X2_0 fcoef market_on]. apply sumn_ext. intros k _.
  destruct (uses (fX2 M k)); reflexivity.
Qed.

Lemma market_on_jacobian M x delta j k : valid_market (fm M) ->
  (forall j, (j < mJ (fm M))%nat -> delta j = update_delta M x j) ->
  (j < mJ (fm M))%nat -> (k < mJ (fm M))%nat ->
  shares_jacobian (market_on M x delta) x j k = shares_jacobian M x j k.
Proof.
  intros V E Hj Hk. unfold shares_jacobian. cbn [fm fI fw market_on].
  apply jacobian_of_ext. intros i l Hi Hl.
  assert (Ll : (l < mJ (fm M))%nat) by (destruct Hl; subst; assumption).
  assert (EU : forall l, (l < mJ (fm M))%nat ->
     utility (fm M) (update_delta (market_on M x delta) x) (update_mu (market_on M x delta) x i) l
     = utility (fm M) (update_delta M x) (update_mu M x i) l).
  { intros q Hq. unfold utility. rewrite market_on_delta, market_on_mu, (E q Hq). reflexivity. }
  repeat split.
  - unfold probs. apply probabilities_ext; assumption.
  - rewrite !conds_cond. apply cond_ext; assumption.
Qed.

Lemma prodn_exp n f : prodn n (fun k => exp (f k)) = exp (sumn n f).
Proof. induction n as [|n IH]; simpl; [rewrite exp_0; reflexivity|]. rewrite IH, exp_plus. reflexivity. Qed.

Lemma prodn_ext n f g : (forall k, (k < n)%nat -> f k = g k) -> prodn n f = prodn n g.
Proof.
  induction n as [|n IH]; intros H; simpl; [reflexivity|].
  rewrite IH by (intros; apply H; lia). rewrite (H n) by lia. reflexivity.
Qed.

(** Costs at the simulated shares, whichever route led to them. *)
Lemma updated_costs S shares0 omega shares j : honest (sK3 S) (sX3 S) ->
  update_costs S shares0 (initial_costs S shares0 omega) shares j = initial_costs S shares omega j.
Proof.
  intros Hn. unfold update_costs, initial_costs.
  assert (E : sumn (sK3 S) (fun k => if uses (sX3 S k) then sgamma S k * (ev (sX3 S k) j (shares j) - ev (sX3 S k) j (shares0 j)) else 0)
     = sumn (sK3 S) (fun k => ev (sX3 S k) j (shares j) * sgamma S k) - sumn (sK3 S) (fun k => ev (sX3 S k) j (shares0 j) * sgamma S k)).
  { rewrite <- sumn_minus. apply sumn_ext. intros k Hk. destruct (uses (sX3 S k)) eqn:U; [ring|].
    rewrite (Hn k j (shares j) (shares0 j) Hk U). ring. }
  destruct (stype S).
  - rewrite E. ring.
  - rewrite (prodn_ext (sK3 S) _ (fun k => exp (if uses (sX3 S k) then sgamma S k * (ev (sX3 S k) j (shares j) - ev (sX3 S k) j (shares0 j)) else 0))).
    + rewrite prodn_exp, E, <- exp_plus. f_equal. ring.
    + intros k _. destruct (uses (sX3 S k)); [reflexivity|rewrite exp_0; reflexivity].
Qed.

Lemma clip_inside bounds c :
  (forall lo, fst bounds = Some lo -> lo <= c) -> (forall hi, snd bounds = Some hi -> c <= hi) ->
  clip_cost bounds c = c.
Proof.
  intros L H. unfold clip_cost.
  destruct (fst bounds) as [lo|] eqn:EL; [rewrite (Rmax_left c lo) by auto|];
    (destruct (snd bounds) as [hi|] eqn:EH; [apply Rmin_left; auto|reflexivity]).
Qed.

Lemma residual_of_costs S bounds shares omega costs j :
  costs j = initial_costs S shares omega j ->
  (forall lo, fst bounds = Some lo -> lo <= costs j) -> (forall hi, snd bounds = Some hi -> costs j <= hi) ->
  residual_omega S bounds shares costs j = omega j.
Proof.
  intros E L H. unfold residual_omega, tilde_costs. rewrite clip_inside by assumption.
  rewrite E. unfold initial_costs. destruct (stype S); [|rewrite ln_exp]; ring.
Qed.

Lemma costs_recovered constant M O S solve shares0 costs x delta :
  valid_market (fm M) -> price_averse M x -> cooperation (mJ (fm M)) O ->
  (forall j k, (j < mJ (fm M))%nat -> (k < mJ (fm M))%nat -> O j k = O k j) ->
  exact_solver (mJ (fm M)) solve ->
  (forall j, (j < mJ (fm M))%nat -> endogenous_contraction constant M O S shares0 costs x j = x j) ->
  (forall j, (j < mJ (fm M))%nat -> delta j = simulated_delta M x j) ->
  snd (compute_costs solve (market_on M x delta) O (simulated_shares M x)) = false ->
  forall j, (j < mJ (fm M))%nat ->
    fst (compute_costs solve (market_on M x delta) O (simulated_shares M x)) j
    = simulated_costs constant M S shares0 costs x j.
Proof.
  intros V PA C Sy HS F D HB j Hj.
  set (c := costs_given constant M S shares0 costs x) in *.
  assert (M1 : markup_equation (mJ (fm M)) O (shares_jacobian M x) (shares_at M x) (fun j => x j - c j)).
  { apply zeta_fixed_iff; [exact Sy|apply C| |exact F]. intros k Hk.
    apply Rlt_not_eq. apply lamda_negative; [exact V|exact Hk|apply PA|apply PA|].
    intros i Hi. apply PA; assumption. }
  assert (M2 := costs_markup_equation solve (market_on M x delta) O (simulated_shares M x) HS HB).
  cbn [fm var0 market_on] in M2.
  assert (M3 : markup_equation (mJ (fm M)) O (shares_jacobian M x) (shares_at M x)
     (fun j => x j - fst (compute_costs solve (market_on M x delta) O (simulated_shares M x)) j)).
  { intros k Hk. rewrite <- (M2 k Hk). f_equal. apply sumn_ext. intros l Hl.
    rewrite market_on_jacobian by assumption. reflexivity. }
  assert (Q := markups_unique M O x _ _ _ V PA C M1 M3 j Hj). cbv beta in Q.
  assert (E : simulated_costs constant M S shares0 costs x j = c j) by (unfold c, costs_given, simulated_costs; destruct constant; reflexivity).
  rewrite E. lra.
Qed.

(** Either costs do not depend on shares or they are updated. *)
Lemma omega_recovered constant M O S solve shares0 omega x delta bounds :
  valid_market (fm M) -> price_averse M x -> cooperation (mJ (fm M)) O ->
  (forall j k, (j < mJ (fm M))%nat -> (k < mJ (fm M))%nat -> O j k = O k j) ->
  exact_solver (mJ (fm M)) solve -> honest (sK3 S) (sX3 S) ->
  (constant = true -> forall k, (k < sK3 S)%nat -> uses (sX3 S k) = false) ->
  (forall j, (j < mJ (fm M))%nat ->
     endogenous_contraction constant M O S shares0 (initial_costs S shares0 omega) x j = x j) ->
  (forall j, (j < mJ (fm M))%nat -> delta j = simulated_delta M x j) ->
  snd (compute_costs solve (market_on M x delta) O (simulated_shares M x)) = false ->
  (forall j lo, (j < mJ (fm M))%nat -> fst bounds = Some lo -> lo <= simulated_costs constant M S shares0 (initial_costs S shares0 omega) x j) ->
  (forall j hi, (j < mJ (fm M))%nat -> snd bounds = Some hi -> simulated_costs constant M S shares0 (initial_costs S shares0 omega) x j <= hi) ->
  forall j, (j < mJ (fm M))%nat ->
    residual_omega S bounds (simulated_shares M x)
      (fst (compute_costs solve (market_on M x delta) O (simulated_shares M x))) j = omega j.
Proof.
  intros V PA C Sy HS Hn Hc F D HB BL BH j Hj.
  assert (E := costs_recovered constant M O S solve shares0 _ x delta V PA C Sy HS F D HB j Hj).
  apply residual_of_costs.
  - rewrite E. unfold simulated_costs. destruct constant.
    + specialize (Hc eq_refl). unfold initial_costs.
      rewrite (sumn_ext (sK3 S) (fun k => ev (sX3 S k) j (shares0 j) * sgamma S k) (fun k => ev (sX3 S k) j (simulated_shares M x j) * sgamma S k)); [reflexivity|].
      intros k Hk. rewrite (Hn k j (shares0 j) (simulated_shares M x j) Hk (Hc k Hk)). reflexivity.
    + apply updated_costs. exact Hn.
  - rewrite E. intros lo Hlo. apply BL; assumption.
  - rewrite E. intros hi Hhi. apply BH; assumption.
Qed.

(* ---------- profit gradients and Hessians ---------- *)

Lemma firm_rows_in J firm f k : In k (firm_rows J firm f) <-> (k < J)%nat /\ firm k = f.
Proof.
  unfold firm_rows. rewrite filter_In, in_seq, Nat.eqb_eq. split; intros; intuition lia.
Qed.

Lemma owns_profit J firm costs s f p k : firm k = f ->
  firm_profit J firm costs s f p = sumn J (fun j => owns firm j k * ((p j - costs j) * s p j)).
Proof.
  intros <-. unfold firm_profit, owns. apply sumn_ext. intros j _. destruct (Nat.eqb (firm j) (firm k)); ring.
Qed.

Lemma firm_gradient_exact M firm costs x k :
  valid_market (fm M) -> good_columns M x -> (k < mJ (fm M))%nat ->
  derivable_pt_lim (fun t => firm_profit (mJ (fm M)) firm costs (shares_at M) (firm k) (upd x k t)) (x k)
    (firm_profit_gradient M (owns firm) costs x k).
Proof.
  intros V G Hk. unfold firm_profit_gradient.
  apply dlim_ext with (fun t => sumn (mJ (fm M)) (fun j => owns firm j k * ((upd x k t j - costs j) * shares_at M (upd x k t) j))).
  { intros t. rewrite (owns_profit (mJ (fm M)) firm costs (shares_at M) (firm k) (upd x k t) k eq_refl). reflexivity. }
  apply (dlim_sumn (mJ (fm M)) (fun j t => owns firm j k * ((upd x k t j - costs j) * shares_at M (upd x k t) j))).
  intros j Hj. apply dlim_scal. apply profit_jacobian_derivative; assumption.
Qed.

Lemma firm_hessian_exact M firm costs x k l :
  valid_market (fm M) -> good_columns M x -> twice_differentiable M x -> (k < mJ (fm M))%nat -> (l < mJ (fm M))%nat ->
  derivable_pt_lim (fun t => firm_profit_gradient M (owns firm) costs (upd x l t) k) (x l)
    (firm_profit_hessian M (owns firm) costs x k l).
Proof.
  intros V G T Hk Hl. unfold firm_profit_gradient, firm_profit_hessian.
  apply (dlim_sumn (mJ (fm M)) (fun j t => owns firm j k * profit_jacobian M costs (upd x l t) j k)).
  intros j Hj. apply dlim_scal. apply profit_hessian_derive; assumption.
Qed.

(* ---------- a market for examples ---------- *)

Definition shares_supply : supply :=
  mk_supply 1 (fun _ => mk_column true (fun _ s => s) (fun _ _ => 1) (fun _ _ => 0)) (fun _ => 1) LinearCosts.

Lemma flat_averse J c : (forall j, 0 < c j) -> forall x, price_averse (flat_market J c) x.
Proof.
  intros Hc x. unfold price_averse. cbn [fI fw fm mH flat_market]. repeat split.
  - lia.
  - intros; lra.
  - intros i j _ _. rewrite flat_derivative. specialize (Hc j). lra.
  - intros H. contradiction.
Qed.

Lemma flat_fixed : forall j, (j < 1)%nat ->
  price_contraction (flat_market 1 (fun _ => 1)) (fun _ _ => 1) (fun _ => -2) (fun _ => 0) j = 0.
Proof.
  intros j Hj. unfold price_contraction, zeta, lamda_inv. rewrite flat_lamda, flat_shares by assumption.
  cbn [mJ fm flat_market sumn]. rewrite flat_gamma by lia.
  destruct (Req_EM_T _ 0) as [E|E]; [exfalso; simpl in E; lra|]. simpl. field.
Qed.

Lemma flat_no_error : snd (compute_costs scalar_solver (market_on (flat_market 1 (fun _ => 1)) (fun _ => 0) (fun _ => 0)) (fun _ _ => 1)
    (simulated_shares (flat_market 1 (fun _ => 1)) (fun _ => 0))) = false.
Proof.
  unfold compute_costs, compute_eta, scalar_solver. cbn [snd var0 market_on].
  rewrite capital_delta_jacobian, market_on_jacobian.
  - rewrite flat_jacobian by lia. destruct (Req_EM_T _ 0) as [E|E]; [exfalso; simpl in E; lra|reflexivity].
  - apply flat_valid; lia.
  - intros j Hj. unfold update_delta. cbn. ring.
  - cbn. lia.
  - cbn. lia.
Qed.

Lemma constant_costs_refuted : exists M O S solve shares0 omega x delta,
  valid_market (fm M) /\ price_averse M x /\ cooperation (mJ (fm M)) O /\
  (forall j k, O j k = O k j) /\ exact_solver (mJ (fm M)) solve /\ honest (sK3 S) (sX3 S) /\
  (forall j, (j < mJ (fm M))%nat ->
     endogenous_contraction true M O S shares0 (initial_costs S shares0 omega) x j = x j) /\
  (forall j, (j < mJ (fm M))%nat -> delta j = simulated_delta M x j) /\
  snd (compute_costs solve (market_on M x delta) O (simulated_shares M x)) = false /\
  (0 < mJ (fm M))%nat /\
  residual_omega S (None, None) (simulated_shares M x)
    (fst (compute_costs solve (market_on M x delta) O (simulated_shares M x))) 0 <> omega 0%nat.
Proof.
  set (M := flat_market 1 (fun _ => 1)).
  assert (V : valid_market (fm M)) by (apply flat_valid; lia).
  assert (PA : price_averse M (fun _ => 0)) by (apply flat_averse; intros; lra).
  assert (Co : cooperation (mJ (fm M)) (fun _ _ => 1)) by (split; intros; [reflexivity|lra]).
  assert (F : forall j, (j < mJ (fm M))%nat ->
     endogenous_contraction true M (fun _ _ => 1) shares_supply (fun _ => 0) (initial_costs shares_supply (fun _ => 0) (fun _ => -2)) (fun _ => 0) j = 0).
  { intros j Hj. unfold endogenous_contraction, costs_given. transitivity (price_contraction M (fun _ _ => 1) (fun _ => -2) (fun _ => 0) j); [|apply flat_fixed; exact Hj].
    unfold price_contraction, zeta, initial_costs. cbn [stype sK3 sX3 sgamma shares_supply ev sumn].
    f_equal; [ring|]. f_equal. f_equal. apply sumn_ext. intros k _. ring. }
  assert (D : forall j, (j < mJ (fm M))%nat -> 0 = simulated_delta M (fun _ => 0) j).
  { intros j Hj. unfold simulated_delta, update_delta. cbn. ring. }
  exists M, (fun _ _ => 1), shares_supply, scalar_solver, (fun _ => 0), (fun _ => -2), (fun _ => 0), (fun _ => 0).
  split; [exact V|]. split; [exact PA|]. split; [exact Co|]. split; [reflexivity|].
  split; [exact scalar_solver_exact|]. split; [intros k j x y _ H; discriminate|].
  split; [exact F|]. split; [exact D|]. split; [exact flat_no_error|]. split; [cbn; lia|].
  unfold residual_omega, tilde_costs. cbn [stype sK3 sX3 sgamma shares_supply ev sumn clip_cost fst snd].
  assert (L0 : (0 < mJ (fm M))%nat) by (cbn; lia).
  rewrite (costs_recovered true M (fun _ _ => 1) shares_supply scalar_solver (fun _ => 0) _ (fun _ => 0) (fun _ => 0)
    V PA Co (fun _ _ _ _ => eq_refl) scalar_solver_exact F D flat_no_error 0%nat L0).
  unfold simulated_costs, initial_costs, simulated_shares. cbn [stype sK3 sX3 sgamma shares_supply ev sumn].
  unfold M. rewrite flat_shares by lia. simpl. lra.
Qed.

Lemma forall2_map {A B} (P : A -> B -> Prop) (f : A -> B) l : (forall a, In a l -> P a (f a)) -> Forall2 P l (map f l).
Proof.
  induction l as [|a l IH]; intros H; constructor; [apply H; left; reflexivity|]. apply IH. intros; apply H; right; assumption.
Qed.

Lemma profit_gradients_exact M firm costs x f :
  valid_market (fm M) -> good_columns M x ->
  Forall2 (fun k g => (k < mJ (fm M))%nat /\ firm k = f /\
             derivable_pt_lim (fun t => firm_profit (mJ (fm M)) firm costs (shares_at M) f (upd x k t)) (x k) g)
    (firm_rows (mJ (fm M)) firm f) (profit_gradients M firm (owns firm) costs x f) /\
  (forall k, (k < mJ (fm M))%nat -> firm k = f -> In k (firm_rows (mJ (fm M)) firm f)) /\
  NoDup (firm_rows (mJ (fm M)) firm f).
Proof.
  intros V G. split; [|split].
  - unfold profit_gradients. apply forall2_map. intros k Hk. apply firm_rows_in in Hk. destruct Hk as [Hk <-].
    split; [exact Hk|]. split; [reflexivity|]. apply firm_gradient_exact; assumption.
  - intros k Hk E. apply firm_rows_in. auto.
  - apply NoDup_filter, seq_NoDup.
Qed.

Lemma profit_hessians_exact M firm costs x e f D :
  valid_market (fm M) -> 0 < e -> (forall y, near (mJ (fm M)) e x y -> good_columns M y) -> twice_differentiable M x ->
  (forall y k, near (mJ (fm M)) e x y -> (k < mJ (fm M))%nat -> firm k = f ->
     derivable_pt_lim (fun t => firm_profit (mJ (fm M)) firm costs (shares_at M) f (upd y k t)) (y k) (D y k)) ->
  Forall2 (fun k row => Forall2 (fun l h => derivable_pt_lim (fun t => D (upd x l t) k) (x l) h)
                          (firm_rows (mJ (fm M)) firm f) row)
    (firm_rows (mJ (fm M)) firm f) (profit_hessians M firm (owns firm) costs x f).
Proof.
  intros V He G T HD. unfold profit_hessians. apply forall2_map. intros k Hk. apply forall2_map. intros l Hl.
  apply firm_rows_in in Hk. apply firm_rows_in in Hl. destruct Hk as [Hk Ek]. destruct Hl as [Hl El].
  apply dlim_ext_near with (fun t => firm_profit_gradient M (owns firm) costs (upd x l t) k) e; [assumption| |
    apply firm_hessian_exact; try assumption; apply G, near_self; assumption].
  intros t Ht. assert (N := near_upd (mJ (fm M)) e x l t He Ht).
  eapply uniqueness_limite; [|apply (HD (upd x l t) k N Hk Ek)].
  rewrite <- Ek. apply firm_gradient_exact; auto.
Qed.

Lemma zero_gradients_iff constant M firm S shares0 costs x :
  valid_market (fm M) -> price_averse M x ->
  (forall f, Forall (fun g => g = 0) (profit_gradients M firm (owns firm) (simulated_costs constant M S shares0 costs x) x f)) <->
  (forall j, (j < mJ (fm M))%nat -> endogenous_contraction constant M (owns firm) S shares0 costs x j = x j).
Proof.
  intros V PA.
  assert (Sy : forall j k, owns firm j k = owns firm k j) by (intros; unfold owns; rewrite Nat.eqb_sym; reflexivity).
  assert (Dg : forall j, owns firm j j = 1) by (intros; unfold owns; rewrite Nat.eqb_refl; reflexivity).
  assert (Nz : forall j, (j < mJ (fm M))%nat -> lamda_at M x j <> 0).
  { intros k Hk. apply Rlt_not_eq. apply lamda_negative; [exact V|exact Hk|apply PA|apply PA|].
    intros i Hi. apply PA; assumption. }
  assert (EC : costs_given constant M S shares0 costs x = simulated_costs constant M S shares0 costs x)
    by (unfold costs_given, simulated_costs; destruct constant; reflexivity).
  unfold endogenous_contraction. rewrite EC. set (c := simulated_costs constant M S shares0 costs x).
  assert (GE : forall k, (k < mJ (fm M))%nat -> firm_profit_gradient M (owns firm) c x k
     = shares_at M x k + sumn (mJ (fm M)) (fun j => owns firm k j * shares_jacobian M x j k * (x j - c j))).
  { intros k Hk. unfold firm_profit_gradient, profit_jacobian.
    rewrite (sumn_ext _ _ (fun j => (if Nat.eqb j k then owns firm j k * shares_at M x j else 0) + owns firm k j * shares_jacobian M x j k * (x j - c j))).
    - rewrite sumn_plus, (sumn_delta _ k (fun j => owns firm j k * shares_at M x j) Hk), Dg. ring.
    - intros j _. rewrite (Sy j k). destruct (Nat.eqb j k); ring. }
  rewrite (zeta_fixed_iff M (owns firm) c x) by (intros; auto). unfold markup_equation. split.
  - intros H j Hj. rewrite <- GE by assumption. specialize (H (firm j)). rewrite Forall_forall in H. apply H.
    unfold profit_gradients. apply in_map. apply firm_rows_in. auto.
  - intros H f. apply Forall_forall. intros g Hg. unfold profit_gradients in Hg. apply in_map_iff in Hg.
    destruct Hg as [k [<- Hk]]. apply firm_rows_in in Hk. rewrite GE by apply Hk. apply H. apply Hk.
Qed.
