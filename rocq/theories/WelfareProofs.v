(** Lemmas about WelfareModel. *)
From Coq Require Import Reals Lra Lia ZArith List Bool Arith Permutation FunctionalExtensionality.
From Verif Require Import Base DemandModel DemandSpec DemandProofs DemandShares DemandElim DemandDeriv
  SupplyModel SupplySpec SupplyProofs DerivModel DerivProofs DerivMore PassProofs BasicsModel WelfareModel WelfareSpec.
Import ListNotations.
Local Open Scope R_scope.

(* ---------- consumer surplus ---------- *)

Lemma weight_plain J inc V : group_weight J (fun _ => O) (fun _ => 0) inc V 0
  = sumn J (fun j => if inc j then exp (V j) else 0).
Proof.
  rewrite <- exp_log_mult_weight. unfold exp_log_mult.
  assert (E : inclusive J (fun _ => O) (fun _ => 0) inc V 0 = sumn J (fun j => if inc j then exp (V j) else 0)).
  { apply sumn_ext; intros j _. rewrite Nat.eqb_refl, andb_true_r.
    destruct (inc j); [|reflexivity]. f_equal. field. }
  rewrite E.
  assert (0 <= sumn J (fun j => if inc j then exp (V j) else 0)).
  { apply sumn_nonneg; intros j _. destruct (inc j); [left; apply exp_pos|lra]. }
  destruct (Rlt_dec 0 _) as [Hp|Hn]; [|lra].
  rewrite Rminus_0_r, Rmult_1_r. apply exp_ln; assumption.
Qed.

Definition surplus_weights (m : market) (inc : nat -> bool) (V : nat -> R) : R :=
  sumn (grpn m) (group_weight (mJ m) (gidx m) (grhox m) inc V).

Lemma surplus_weights_nonneg m inc V : 0 <= surplus_weights m inc V.
Proof. apply sumn_nonneg; intros; apply group_weight_nonneg. Qed.

Lemma surplus_weights_plain m inc V : mH m = O ->
  surplus_weights m inc V = sumn (mJ m) (fun j => if inc j then exp (V j) else 0).
Proof.
  intros HH. unfold surplus_weights, grpn, gidx, grhox. rewrite HH. cbn [Nat.eqb sumn].
  rewrite <- weight_plain. simpl. apply Rplus_0_l.
Qed.

Lemma surplus_weights_nest m inc V : mH m <> O ->
  surplus_weights m inc V = sumn (mH m) (group_weight (mJ m) (gid m) (grho m) inc V).
Proof.
  intros HH. unfold surplus_weights, grpn. destruct (Nat.eqb_spec (mH m) 0) as [|_]; [contradiction|].
  assert (E1 : gidx m = gid m).
  { apply functional_extensionality; intros. unfold gidx. destruct (Nat.eqb_spec (mH m) 0); [contradiction|reflexivity]. }
  assert (E2 : grhox m = grho m).
  { apply functional_extensionality; intros. unfold grhox. destruct (Nat.eqb_spec (mH m) 0); [contradiction|reflexivity]. }
  rewrite E1, E2. reflexivity.
Qed.

(** The overflow-safe computation is exact. *)
Lemma surplus_numerator_exact m avail mask delta mu :
  valid_market m ->
  surplus_numerator m (option_map (fun b j => indR (b j)) avail) mask delta mu
  = ln (1 + surplus_weights m (included avail None mask) (fun j => delta j + mu j)).
Proof.
  intros V. set (inc := included avail None mask). set (U := fun j => delta j + mu j).
  assert (HWn := surplus_weights_nonneg m inc U).
  assert (Hln : forall r x, 0 <= x -> ln (exp (- r) + x * exp (- r)) - - r = ln (1 + x)).
  { intros r x Hx. replace (exp (- r) + x * exp (- r)) with ((1 + x) * exp (- r)) by ring.
    rewrite ln_mult; [|lra|apply exp_pos]. rewrite ln_exp. ring. }
  unfold surplus_numerator. cbv zeta.
  set (u := surplus_utilities m delta mu). set (r := utility_reduction m u).
  assert (ER : forall j, restrict_choice (mk_choice false (option_map (fun b j => indR (b j)) avail) None mask)
      (fun j => exp (u j - r)) j = (if inc j then exp (u j) else 0) * exp (- r)).
  { intros j. change (mk_choice false (option_map (fun b j => indR (b j)) avail) None mask)
      with (choice_with true avail None mask). rewrite restrict_spec. fold inc.
    destruct (inc j); [|ring]. unfold Rminus. apply exp_plus. }
  destruct (Nat.eqb_spec (mH m) 0) as [HH|HH].
  - rewrite (sumn_ext _ _ _ (fun j _ => ER j)), sumn_scal_r.
    rewrite surplus_weights_plain in * by assumption.
    assert (Eu : forall j, u j = U j).
    { intros j. unfold u, surplus_utilities. rewrite HH. reflexivity. }
    rewrite (sumn_ext _ _ (fun j => if inc j then exp (U j) else 0)) by (intros; rewrite Eu; reflexivity).
    apply Hln; assumption.
  - assert (EG : forall h, gsum m (restrict_choice (mk_choice false (option_map (fun b j => indR (b j)) avail)
         None mask) (fun j => exp (u j - r))) h = inclusive (mJ m) (gid m) (grho m) inc U h * exp (- r)).
    { intros h. rewrite (gsum_ext m _ _ h (fun j _ => ER j)), gsum_scale. f_equal.
      unfold gsum, inclusive. apply sumn_ext; intros j _.
      unfold u, surplus_utilities, rho. destruct (Nat.eqb_spec (mH m) 0); [contradiction|].
      destruct (Nat.eqb_spec (gid m j) h) as [->|]; destruct (inc j); reflexivity. }
    rewrite surplus_weights_nest in * by assumption.
    set (W := group_weight (mJ m) (gid m) (grho m) inc U) in *.
    set (w := fun h => if rho_multi m then exp (- r * (grho m h - min_rho m)) else 1).
    rewrite (sumn_ext (mH m) _ (fun h => W h * exp (- (r * (1 - min_rho m))))).
    + rewrite sumn_scal_r. replace (- r * (1 - min_rho m)) with (- (r * (1 - min_rho m))) by ring.
      apply Hln; assumption.
    + intros h Hh. rewrite EG, exp_log_mult_scale, exp_log_mult_weight. fold W.
      assert (Ew : w h = exp (- r * (grho m h - min_rho m))).
      { unfold w. destruct (rho_multi m) eqn:Em; [reflexivity|].
        assert (E : grho m h = min_rho m).
        { unfold min_rho. destruct (maxn_attained (pred (mH m)) (fun h => - grho m h)) as [k [Hk ->]].
          rewrite Ropp_involutive. apply (vm_single _ V Em); lia. }
        rewrite E. replace (- r * (min_rho m - min_rho m)) with 0 by ring. symmetry; apply exp_0. }
      change (w h * (W h * exp (- r * (1 - grho m h))) = W h * exp (- (r * (1 - min_rho m)))).
      rewrite Ew. replace (- (r * (1 - min_rho m)))
        with (- r * (grho m h - min_rho m) + - r * (1 - grho m h)) by ring.
      rewrite exp_plus. ring.
Qed.

(** The log-sum is the expected maximum of the specification. *)
Lemma surplus_expected_max m inc V :
  ln (1 + surplus_weights m inc V) =
  if Nat.eqb (mH m) 0 then expected_max (mJ m) inc 1 V
  else nested_expected_max (mJ m) (mH m) (gid m) (grho m) inc V.
Proof.
  destruct (Nat.eqb_spec (mH m) 0) as [HH|HH].
  - rewrite surplus_weights_plain by assumption. unfold expected_max. rewrite Rmult_1_l. f_equal. f_equal.
    apply sumn_ext; intros j _. destruct (inc j); [f_equal; field|reflexivity].
  - rewrite surplus_weights_nest by assumption. reflexivity.
Qed.

Lemma individual_surplus_exact M avail mask x i a :
  valid_market (fm M) -> eps_scale (fm M) = 1 ->
  (forall y j, (j < mJ (fm M))%nat -> utility_derivatives M false y i j = - a) ->
  individual_surplus M (fun i => option_map (fun b j => indR (b j)) (avail i)) mask x i =
  (let V := fun j => update_delta M x j + update_mu M x i j in
   let inc := included (avail i) None mask in
   if Nat.eqb (mH (fm M)) 0 then expected_max (mJ (fm M)) inc 1 V
   else nested_expected_max (mJ (fm M)) (mH (fm M)) (gid (fm M)) (grho (fm M)) inc V) / a.
Proof.
  intros V E1 Ha. cbv zeta. rewrite <- surplus_expected_max. unfold individual_surplus.
  rewrite surplus_numerator_exact by assumption. f_equal.
  rewrite Ha; [ring|]. apply (vm_J _ V).
Qed.

Lemma dlim_logsum J H grp inc V r t v :
  (forall j, (j < J)%nat -> (grp j < H)%nat) -> (forall h, (h < H)%nat -> r h < 1) ->
  (forall j, (j < J)%nat -> derivable_pt_lim (V j) t (v j)) ->
  derivable_pt_lim (fun y => ln (1 + sumn H (group_weight J grp r inc (fun k => V k y)))) t
    (sumn J (fun k => nested J H grp r inc true (fun k => V k t) k * v k)).
Proof.
  intros Hg Hr DV.
  assert (HW := weights_nonneg J H grp r inc (fun k => V k t)).
  assert (DW : derivable_pt_lim (fun y => 1 + sumn H (group_weight J grp r inc (fun k => V k y))) t
     (0 + sumn H (fun h => group_weight J grp r inc (fun k => V k t) h
                           * dB J grp inc V (fun h _ => r h) t v (fun _ => 0) h))).
  { apply dlim_plus; [apply dlim_const|].
    apply (dlim_sumn H (fun h y => group_weight J grp r inc (fun k => V k y) h) t).
    intros h Hh. apply (dlim_weight J H grp inc V (fun h _ => r h) t v (fun _ => 0)); auto.
    intros; apply dlim_const. }
  eapply dlim_eq; [|apply (dlim_ln _ _ _ DW); lra].
  cbv beta. rewrite <- (total_B_fixed J H grp inc true V r t v Hg Hr). unfold total_B, group_share.
  cbn [indR]. rewrite Rplus_0_l. unfold Rdiv. rewrite <- sumn_scal_r.
  apply sumn_ext; intros h Hh. change (fun h : nat => r h) with r. ring.
Qed.

(** The derivative of the log-sum along any movement of delta and mu. *)
Lemma dlim_surplus m avail mask safe delta mu t v :
  valid_market m -> eps_scale m = 1 ->
  (forall j, (j < mJ m)%nat -> derivable_pt_lim (fun y => delta y j + mu y j) t (v j)) ->
  derivable_pt_lim (fun y => surplus_numerator m (option_map (fun b j => indR (b j)) avail) mask (delta y) (mu y)) t
    (sumn (mJ m) (fun k => fst (probabilities_linear m (choice_with true avail None mask) safe (delta t) (mu t)) k
                           * v k)).
Proof.
  intros V E1 DV.
  apply dlim_ext with (fun y => ln (1 + surplus_weights m (included avail None mask) (fun j => delta y j + mu y j))).
  { intros y. symmetry. apply surplus_numerator_exact; assumption. }
  eapply dlim_eq; [|apply (dlim_logsum (mJ m) (grpn m) (gidx m) (included avail None mask)
     (fun j y => delta y j + mu y j) (grhox m) t v)].
  - apply sumn_ext; intros k Hk. f_equal. rewrite probabilities_nested by assumption.
    f_equal. apply functional_extensionality; intros j. unfold utility. rewrite E1. field.
  - intros; apply gidx_lt; assumption.
  - intros; apply grhox_lt; assumption.
  - assumption.
Qed.

Lemma roy M avail mask safe x k a :
  valid_market (fm M) -> (forall y, good_columns M y) -> eps_scale (fm M) = 1 -> (k < mJ (fm M))%nat ->
  (forall i, (i < fI M)%nat -> a i <> 0) ->
  (forall i y j, (i < fI M)%nat -> (j < mJ (fm M))%nat -> utility_derivatives M false y i j = - a i) ->
  derivable_pt_lim (fun t => consumer_surplus M (fun i => option_map (fun b j => indR (b j)) (avail i)) mask (upd x k t))
    (x k)
    (- sumn (fI M) (fun i => fst (probabilities_linear (fm M) (choice_with true (avail i) None mask) safe
                        (update_delta M x) (update_mu M x i)) k * fw M i)).
Proof.
  intros V G E1 Hk Ha0 Ha. unfold consumer_surplus. rewrite <- sumn_opp.
  apply (dlim_sumn (fI M) (fun i t => individual_surplus M (fun i => option_map (fun b j => indR (b j)) (avail i)) mask (upd x k t) i * fw M i)).
  intros i Hi. unfold individual_surplus.
  assert (EX : upd x k (x k) = x) by (apply functional_extensionality; intros; apply upd_same).
  assert (DV : forall j, (j < mJ (fm M))%nat -> derivable_pt_lim
     (fun t => update_delta M (upd x k t) j + update_mu M (upd x k t) i j) (x k) (if Nat.eqb j k then - a i else 0)).
  { intros j Hj. eapply dlim_eq; [|eapply dlim_ext; [|apply (utility_curve M x k i j V (G x) Hj)]].
    - rewrite Ha by assumption. reflexivity.
    - intros t. cbv beta. unfold utility. rewrite E1. field. }
  assert (DS := dlim_surplus (fm M) (avail i) mask safe (fun t => update_delta M (upd x k t))
     (fun t => update_mu M (upd x k t) i) (x k) _ V E1 DV).
  cbv beta in DS. rewrite EX in DS.
  apply (dlim_scal_r (/ - utility_derivatives M false (var0 M) i 0 * fw M i)) in DS.
  eapply dlim_ext; [|eapply dlim_eq; [|exact DS]].
  - intros t. cbv beta. unfold Rdiv. ring.
  - rewrite (sumn_single _ k); [|assumption|].
    + rewrite Nat.eqb_refl. rewrite Ha; [|assumption|apply (vm_J _ V)].
      assert (H0 := Ha0 i Hi). field. assumption.
    + intros j Hj Hne. destruct (Nat.eqb_spec j k); [contradiction|ring].
Qed.

Lemma surplus_delta_derivative m avail mask safe delta mu k :
  valid_market m -> eps_scale m = 1 -> (k < mJ m)%nat ->
  derivable_pt_lim (fun t => surplus_numerator m (option_map (fun b j => indR (b j)) avail) mask (upd delta k t) mu)
    (delta k) (fst (probabilities_linear m (choice_with true avail None mask) safe delta mu) k).
Proof.
  intros V E1 Hk.
  assert (EX : upd delta k (delta k) = delta) by (apply functional_extensionality; intros; apply upd_same).
  assert (D := dlim_surplus m avail mask safe (fun t => upd delta k t) (fun _ => mu) (delta k)
     (fun j => if Nat.eqb j k then 1 else 0) V E1).
  cbv beta in D. rewrite EX in D. eapply dlim_eq; [|apply D].
  - rewrite (sumn_single _ k); [|assumption|].
    + rewrite Nat.eqb_refl; ring.
    + intros j Hj Hne. destruct (Nat.eqb_spec j k); [contradiction|ring].
  - intros j Hj. eapply dlim_eq; [|apply dlim_plus; [apply upd_derive|apply dlim_const]]. ring.
Qed.

Lemma weights_inc_mono m inc inc' V : valid_market m ->
  (forall j, (j < mJ m)%nat -> inc j = true -> inc' j = true) ->
  surplus_weights m inc V <= surplus_weights m inc' V.
Proof.
  intros Vm Hi. unfold surplus_weights.
  assert (C : sumn (grpn m) (group_weight (mJ m) (gidx m) (grhox m) inc V)
              <= exp 0 * sumn (grpn m) (group_weight (mJ m) (gidx m) (grhox m) inc' V)).
  { apply weights_compare; try assumption.
    - intros h Hh; apply grhox_lt; assumption.
    - intros; lra. }
  rewrite exp_0, Rmult_1_l in C. exact C.
Qed.

Lemma surplus_elimination M avail mask x i a :
  valid_market (fm M) -> 0 < a ->
  (forall y j, (j < mJ (fm M))%nat -> utility_derivatives M false y i j = - a) ->
  let av := fun i => option_map (fun b j => indR (b j)) (avail i) in
  individual_surplus M av (Some mask) x i <= individual_surplus M av None x i /\
  0 <= individual_surplus M av (Some mask) x i.
Proof.
  intros V Ha Hd av. unfold individual_surplus, av. rewrite !surplus_numerator_exact by assumption.
  rewrite Hd by apply (vm_J _ V). rewrite Ropp_involutive.
  set (U := fun j => _). assert (Hia : 0 < / a) by (apply Rinv_0_lt_compat; assumption).
  assert (H0 := surplus_weights_nonneg (fm M) (included (avail i) None (Some mask)) U).
  assert (H1 := surplus_weights_nonneg (fm M) (included (avail i) None None) U).
  assert (H2 : surplus_weights (fm M) (included (avail i) None (Some mask)) U
               <= surplus_weights (fm M) (included (avail i) None None) U).
  { apply weights_inc_mono; [assumption|]. intros j _. unfold included.
    destruct (avail i) as [b|]; simpl; rewrite ?andb_true_r; [|reflexivity]. destruct (b j); simpl; auto. }
  split.
  - unfold Rdiv. apply Rmult_le_compat_r; [lra|].
    destruct H2 as [H2|H2]; [left; apply ln_increasing; lra|rewrite H2; lra].
  - apply Rmult_le_pos; [|lra]. rewrite <- ln_1.
    destruct H0 as [H0|H0]; [left; apply ln_increasing; lra|rewrite <- H0, Rplus_0_r; lra].
Qed.

(** Utility as a function of prices, in utils. *)
Definition price_utility (M : full_market) (i : nat) (x : nat -> R) (j : nat) : R :=
  update_delta M x j + update_mu M x i j.

Lemma no_income_derivative M i a y j :
  valid_market (fm M) -> (forall y, good_columns M y) -> eps_scale (fm M) = 1 ->
  no_income_effects (mJ (fm M)) (price_utility M i) a -> (j < mJ (fm M))%nat ->
  utility_derivatives M false y i j = - a.
Proof.
  intros V G E1 N Hj. assert (D := utility_curve M y j i j V (G y) Hj). rewrite Nat.eqb_refl in D.
  assert (D' := N y j j Hj Hj). rewrite Nat.eqb_refl in D'.
  eapply dlim_unique; [exact D|]. eapply dlim_ext; [|exact D'].
  intros t. unfold price_utility, utility. rewrite E1. field.
Qed.

Lemma income_surplus_exact M avail mask x i a :
  valid_market (fm M) -> (forall y, good_columns M y) -> eps_scale (fm M) = 1 ->
  no_income_effects (mJ (fm M)) (price_utility M i) a ->
  individual_surplus M (fun i => option_map (fun b j => indR (b j)) (avail i)) mask x i =
  (let inc := included (avail i) None mask in
   if Nat.eqb (mH (fm M)) 0 then expected_max (mJ (fm M)) inc 1 (price_utility M i x)
   else nested_expected_max (mJ (fm M)) (mH (fm M)) (gid (fm M)) (grho (fm M)) inc (price_utility M i x)) / a.
Proof.
  intros V G E1 N. apply individual_surplus_exact; try assumption.
  intros; apply no_income_derivative; assumption.
Qed.

Lemma income_roy M avail mask safe x k a :
  valid_market (fm M) -> (forall y, good_columns M y) -> eps_scale (fm M) = 1 -> (k < mJ (fm M))%nat ->
  (forall i, (i < fI M)%nat -> a i <> 0) ->
  (forall i, (i < fI M)%nat -> no_income_effects (mJ (fm M)) (price_utility M i) (a i)) ->
  derivable_pt_lim (fun t => consumer_surplus M (fun i => option_map (fun b j => indR (b j)) (avail i)) mask (upd x k t))
    (x k)
    (- sumn (fI M) (fun i => fst (probabilities_linear (fm M) (choice_with true (avail i) None mask) safe
                        (update_delta M x) (update_mu M x i)) k * fw M i)).
Proof.
  intros V G E1 Hk Ha N. apply roy with a; try assumption.
  intros; apply no_income_derivative; auto.
Qed.

Lemma income_elimination M avail mask x i a :
  valid_market (fm M) -> (forall y, good_columns M y) -> eps_scale (fm M) = 1 -> 0 < a ->
  no_income_effects (mJ (fm M)) (price_utility M i) a ->
  let av := fun i => option_map (fun b j => indR (b j)) (avail i) in
  individual_surplus M av (Some mask) x i <= individual_surplus M av None x i /\
  0 <= individual_surplus M av (Some mask) x i.
Proof.
  intros V G E1 Ha N. apply surplus_elimination with a; try assumption.
  intros; apply no_income_derivative; assumption.
Qed.

(** One product, utility log 4 at price zero, epsilon scale eps. *)
Definition scaled_market (eps : R) : full_market :=
  mk_full_market (mk_market 1 0 (fun _ => O) false (fun _ => 0) eps) 1 (fun _ => 1)
    1 (fun _ => mk_column true (fun j x => x) (fun j x => 1) (fun j x => 0)) (fun _ => - (1))
    0 (fun _ => mk_column false (fun _ _ => 0) (fun _ _ => 0) (fun _ _ => 0)) (fun _ _ _ => 0)
    (fun _ => 0) (fun _ => ln 4) (fun _ _ => 0).

Lemma scaled_valid eps : 0 < eps -> valid_market (fm (scaled_market eps)).
Proof. intros He. constructor; simpl; try lra; try lia; try contradiction; intros; try reflexivity. Qed.

Lemma scaled_good eps x : good_columns (scaled_market eps) x.
Proof. split; intros k j Hu Hk Hj; [|simpl in Hk; lia]. simpl. apply dlim_id. Qed.

Lemma scaled_utility eps i x j : price_utility (scaled_market eps) i x j = ln 4 - x j.
Proof. unfold price_utility, update_delta, update_mu, compute_mu; simpl. ring. Qed.

Lemma scaled_income eps i : no_income_effects 1 (price_utility (scaled_market eps) i) 1.
Proof.
  intros x k j Hj Hk. assert (j = 0)%nat by lia. assert (k = 0)%nat by lia. subst.
  apply dlim_ext with (fun t => ln 4 - t).
  { intros t. rewrite scaled_utility. reflexivity. }
  simpl. eapply dlim_eq; [|apply dlim_minus; [apply dlim_const|apply dlim_id]]. ring.
Qed.

Lemma scaled_surplus eps : 0 < eps ->
  individual_surplus (scaled_market eps) (fun _ => None) None (fun _ => 0) 0 = eps * ln 5.
Proof.
  intros He. unfold individual_surplus.
  change (None (A := nat -> R)) with (option_map (fun (b : nat -> bool) j => indR (b j)) None).
  rewrite surplus_numerator_exact by (apply scaled_valid; assumption).
  rewrite surplus_weights_plain by reflexivity.
  assert (EU : utility_derivatives (scaled_market eps) false (var0 (scaled_market eps)) 0 0 = - / eps).
  { unfold utility_derivatives. rewrite eps_div. simpl. field. lra. }
  rewrite EU. change (mJ (fm (scaled_market eps))) with 1%nat. cbn [sumn].
  change (included None None None 0) with true. cbv iota.
  change (update_delta (scaled_market eps) (fun _ => 0) 0 + update_mu (scaled_market eps) (fun _ => 0) 0 0)
    with (price_utility (scaled_market eps) 0 (fun _ => 0) 0).
  rewrite scaled_utility, Rminus_0_r, exp_ln by lra.
  replace (1 + (0 + 4)) with 5 by ring. field. lra.
Qed.

Lemma surplus_scale_refuted :
  exists M, valid_market (fm M) /\ (forall y, good_columns M y) /\ mH (fm M) = O /\ eps_scale (fm M) = 2 /\
  no_income_effects (mJ (fm M)) (price_utility M 0) 1 /\
  individual_surplus M (fun _ => None) None (var0 M) 0
  <> expected_max (mJ (fm M)) all_goods (eps_scale (fm M)) (price_utility M 0 (var0 M)) / 1.
Proof.
  exists (scaled_market 2). split; [apply scaled_valid; lra|]. split; [apply scaled_good|].
  split; [reflexivity|]. split; [reflexivity|]. split; [apply scaled_income|].
  change (var0 (scaled_market 2)) with (fun _ : nat => 0). rewrite scaled_surplus by lra.
  unfold expected_max. change (mJ (fm (scaled_market 2))) with 1%nat.
  change (eps_scale (fm (scaled_market 2))) with 2. cbn [sumn]. unfold all_goods. cbv iota.
  rewrite scaled_utility, Rminus_0_r.
  replace (exp (ln 4 / 2)) with 2.
  - replace (1 + (0 + 2)) with 3 by ring. unfold Rdiv. rewrite Rinv_1, Rmult_1_r.
    assert (ln 3 < ln 5) by (apply ln_increasing; lra). intros Q; lra.
  - replace 4 with (2 * 2) by ring. rewrite ln_mult by lra. replace ((ln 2 + ln 2) / 2) with (ln 2) by field.
    rewrite exp_ln; lra.
Qed.

(** Prices enter as x + x^2, so the price derivative depends on the price. *)
Definition curved_market : full_market :=
  mk_full_market (mk_market 1 0 (fun _ => O) false (fun _ => 0) 1) 1 (fun _ => 1)
    1 (fun _ => mk_column true (fun j x => x + x * x) (fun j x => 1 + 2 * x) (fun j x => 2)) (fun _ => - (1))
    0 (fun _ => mk_column false (fun _ _ => 0) (fun _ _ => 0) (fun _ _ => 0)) (fun _ _ _ => 0)
    (fun _ => 0) (fun _ => 0) (fun _ _ => 0).

Lemma surplus_point_refuted :
  exists M x, valid_market (fm M) /\ (forall y, good_columns M y) /\ eps_scale (fm M) = 1 /\ mJ (fm M) = 1%nat /\
  forall d, derivable_pt_lim (fun t => price_utility M 0 (upd x 0 t) 0) (x O) (- d) ->
  individual_surplus M (fun _ => None) None x 0
  <> expected_max (mJ (fm M)) all_goods 1 (price_utility M 0 x) / d.
Proof.
  exists curved_market, (fun _ => 1).
  assert (V : valid_market (fm curved_market)).
  { constructor; simpl; try lra; try lia; try contradiction; intros; reflexivity. }
  assert (G : forall y, good_columns curved_market y).
  { intros y. split; intros k j Hu Hk Hj; [|simpl in Hk; lia]. simpl.
    eapply dlim_eq; [|apply dlim_plus; [apply dlim_id|
      apply (dlim_mult (fun x => x) (fun x => x)); apply dlim_id]]. ring. }
  split; [exact V|]. split; [exact G|]. split; [reflexivity|]. split; [reflexivity|].
  intros d D.
  assert (Ed : d = 3).
  { assert (D2 := utility_curve curved_market (fun _ => 1) 0 0 0 V (G _) ltac:(simpl; lia)).
    rewrite Nat.eqb_refl in D2.
    assert (Eu : utility_derivatives curved_market false (fun _ => 1) 0 0 = - (3)).
    { unfold utility_derivatives. rewrite eps_div. simpl. field. }
    rewrite Eu in D2. apply (dlim_ext _ (fun t => price_utility curved_market 0 (upd (fun _ => 1) 0 t) 0)) in D2.
    - assert (E := dlim_unique _ _ _ _ D D2). lra.
    - intros t. unfold utility, price_utility. simpl. field. }
  subst d. unfold individual_surplus.
  change (None (A := nat -> R)) with (option_map (fun (b : nat -> bool) j => indR (b j)) None).
  rewrite surplus_numerator_exact by exact V.
  rewrite surplus_expected_max. change (Nat.eqb (mH (fm curved_market)) 0) with true. cbv iota.
  assert (Eu : utility_derivatives curved_market false (var0 curved_market) 0 0 = - (1)).
  { unfold utility_derivatives. rewrite eps_div. simpl. field. }
  rewrite Eu, included_all.
  change (fun j => update_delta curved_market (fun _ => 1) j + update_mu curved_market (fun _ => 1) 0 j)
    with (price_utility curved_market 0 (fun _ => 1)).
  set (E := expected_max _ _ _ _).
  assert (0 < E); [|intros Q; unfold Rdiv in Q; rewrite Ropp_involutive, Rinv_1 in Q; lra].
  unfold E, expected_max. rewrite Rmult_1_l, <- ln_1. apply ln_increasing; [lra|].
  match goal with |- _ < _ + ?s => set (S := s); assert (0 < S); [|lra]; unfold S end.
  apply sumn_pos; [intros; left; apply exp_pos|]. exists O. split; [simpl; lia|apply exp_pos].
Qed.

(* ---------- long-run diversion ---------- *)

Definition predicted (m : market) (a : agents) (delta : nat -> R) := market_shares m a true delta.

Lemma without_self m a delta j : valid_market m -> (j < mJ m)%nat -> shares_without m a delta j j = 0.
Proof.
  intros V Hj. unfold shares_without. transitivity (sumn (aI a) (fun _ => 0)); [|apply sumn_zero].
  apply sumn_ext; intros i _.
  change (mk_choice false None (Some j) None) with (choice_with true None (Some j) None).
  rewrite probabilities_nested by assumption. unfold nested, within_group, included.
  rewrite Nat.eqb_refl. cbn [negb andb]. ring.
Qed.

Lemma long_run_rows m a delta observed j :
  valid_market m -> (j < mJ m)%nat -> observed j <> 0 ->
  sumn (mJ m) (long_run_diversion m a delta observed j) = 1.
Proof.
  intros V Hj Ho. unfold long_run_diversion. cbv zeta.
  set (row := fun l => (shares_without m a delta j l - observed l) / observed j).
  assert (Er : row j = - (1)).
  { unfold row. rewrite without_self by assumption. field. assumption. }
  rewrite (sumn_ext (mJ m) _ (fun k => row k + (if Nat.eqb k j then - row k - sumn (mJ m) row else 0))).
  - rewrite sumn_plus, (sumn_delta (mJ m) j (fun k => - row k - sumn (mJ m) row)) by assumption.
    rewrite Er. ring.
  - intros k _. change ((if Nat.eqb k j then - sumn (mJ m) row else row k)
      = row k + (if Nat.eqb k j then - row k - sumn (mJ m) row else 0)). destruct (Nat.eqb k j); ring.
Qed.

Lemma without_gains m a delta j : valid_market m ->
  (mH m <> O -> forall h, (h < mH m)%nat -> 0 <= grho m h) ->
  (forall i, (i < aI a)%nat -> 0 <= aw a i) -> (j < mJ m)%nat ->
  (forall k, (k < mJ m)%nat -> k <> j -> predicted m a delta k <= shares_without m a delta j k) /\
  sumn (mJ m) (shares_without m a delta j) <= sumn (mJ m) (predicted m a delta).
Proof.
  intros V Hr Hw Hj. unfold predicted, market_shares, shares_without. split.
  - intros k Hk Hne. apply sumn_le; intros i Hi.
    destruct (elimination_gain m true delta (amu a i) None (Some j) None V Hr) as [A _].
    apply Rmult_le_compat_r; [auto|]. apply (proj1 (A k Hk)). unfold included.
    destruct (Nat.eqb_spec k j); [contradiction|reflexivity].
  - rewrite !(sumn_swap (mJ m)). apply sumn_le; intros i Hi. rewrite !sumn_scal_r.
    apply Rmult_le_compat_r; [auto|].
    destruct (elimination_gain m true delta (amu a i) None (Some j) None V Hr) as [_ B].
    change (mk_choice false None (Some j) None) with (choice_with true None (Some j) None).
    cbv zeta in B. lra.
Qed.

Lemma long_run_nonneg m a delta j k :
  valid_market m -> valid_agents a ->
  (mH m <> O -> forall h, (h < mH m)%nat -> 0 <= grho m h) ->
  (j < mJ m)%nat -> (k < mJ m)%nat ->
  0 <= long_run_diversion m a delta (predicted m a delta) j k.
Proof.
  intros V A Hr Hj Hk. assert (Hs := market_shares_pos m a true delta j V A Hj).
  fold (predicted m a delta) in Hs. 
  destruct (without_gains m a delta j V Hr (proj1 A) Hj) as [G1 G2].
  assert (Hi : 0 < / predicted m a delta j) by (apply Rinv_0_lt_compat; exact Hs).
  unfold long_run_diversion. destruct (Nat.eqb_spec k j) as [->|Hne].
  - unfold Rdiv. rewrite sumn_scal_r, sumn_minus.
    assert (0 <= (sumn (mJ m) (predicted m a delta) - sumn (mJ m) (shares_without m a delta j)) * / predicted m a delta j).
    { apply Rmult_le_pos; lra. }
    lra.
  - apply Rmult_le_pos; [|lra]. assert (B := G1 k Hk Hne). lra.
Qed.

(** What the entries mean: the share product k gains when product j does not exist. *)
Lemma long_run_meaning m a delta j k :
  valid_market m -> valid_agents a -> (1 < mJ m)%nat -> (j < mJ m)%nat -> (k < pred (mJ m))%nat ->
  let m' := drop_product m j in
  let a' := mk_agents (aI a) (aw a) (fun i l => amu a i (skip j l)) in
  let s := predicted m a delta in
  let s' := predicted m' a' (fun l => delta (skip j l)) in
  long_run_diversion m a delta s j (skip j k) * s j = s' k - s (skip j k) /\
  long_run_diversion m a delta s j j * s j = sumn (mJ m) s - sumn (pred (mJ m)) s'.
Proof.
  intros V A HJ Hj Hk m' a' s s'. assert (Hs := market_shares_pos m a true delta j V A Hj).
  change (market_shares m a true delta j) with (s j) in Hs.
  assert (E : forall l, (l < pred (mJ m))%nat -> shares_without m a delta j (skip j l) = s' l).
  { intros l Hl. unfold shares_without, s', predicted, market_shares. apply sumn_ext; intros i Hi. f_equal.
    destruct (eliminate_is_drop m true delta (amu a i) j V HJ Hj) as [_ B]. apply B; assumption. }
  unfold long_run_diversion. rewrite Nat.eqb_refl.
  destruct (Nat.eqb_spec (skip j k) j) as [Es|_]; [exfalso; exact (skip_neq j k Es)|]. split.
  - rewrite E by assumption. field. lra.
  - unfold Rdiv. rewrite sumn_scal_r, sumn_minus.
    assert (ES : sumn (mJ m) (shares_without m a delta j) = sumn (pred (mJ m)) s').
    { replace (mJ m) with (S (pred (mJ m))) at 1 by lia. rewrite (sumn_skip _ j) by lia.
      rewrite without_self by assumption. rewrite Rplus_0_l.
      apply sumn_ext; intros l Hl; apply E; assumption. }
    rewrite ES. field. lra.
Qed.

(* ---------- HHI ---------- *)

Lemma insert_unique_in x y l : In y (insert_unique x l) <-> y = x \/ In y l.
Proof.
  induction l as [|z l IH]; simpl; [intuition congruence|].
  destruct (Z.ltb_spec x z); simpl; [intuition congruence|].
  destruct (Z.eqb_spec x z); simpl; [subst; intuition congruence|]. rewrite IH. intuition.
Qed.

Lemma np_unique_in x l : In x (np_unique l) <-> In x l.
Proof.
  induction l as [|y l IH]; simpl; [tauto|]. rewrite insert_unique_in, IH. intuition congruence.
Qed.

Inductive increasing : list Z -> Prop :=
| inc_nil : increasing []
| inc_cons x l : (forall y, In y l -> (x < y)%Z) -> increasing l -> increasing (x :: l).

Lemma insert_unique_increasing x l : increasing l -> increasing (insert_unique x l).
Proof.
  induction 1 as [|y l Hy Hl IH]; simpl.
  - constructor; [simpl; tauto|constructor].
  - destruct (Z.ltb_spec x y).
    + constructor; [|constructor; assumption]. intros z [<-|Hz]; [assumption|].
      specialize (Hy z Hz). lia.
    + destruct (Z.eqb_spec x y); [constructor; assumption|].
      constructor; [|assumption]. intros z Hz. apply insert_unique_in in Hz. destruct Hz as [->|Hz]; [lia|auto].
Qed.

Lemma np_unique_increasing l : increasing (np_unique l).
Proof. induction l; simpl; [constructor|apply insert_unique_increasing; assumption]. Qed.

Lemma increasing_nodup l : increasing l -> NoDup l.
Proof. induction 1 as [|x l Hx _ IH]; constructor; [|assumption]. intros HIn. specialize (Hx x HIn). lia. Qed.

Lemma lsum_total {A} (f : A -> R) l : lsum (map f l) = total f l.
Proof. unfold lsum, total. induction l; simpl; [reflexivity|]. rewrite IHl. reflexivity. Qed.

Lemma total_ext {A} (f g : A -> R) l : (forall x, In x l -> f x = g x) -> total f l = total g l.
Proof.
  induction l as [|y l IH]; intros H; simpl; [reflexivity|].
  rewrite (H y) by (left; reflexivity). rewrite IH; [reflexivity|]. intros; apply H; right; assumption.
Qed.

Lemma total_cons {A} (f : A -> R) x l : total f (x :: l) = f x + total f l.
Proof. reflexivity. Qed.
Lemma total_plus {A} (f g : A -> R) l : total (fun x => f x + g x) l = total f l + total g l.
Proof. induction l as [|y l IH]; [simpl; ring|]. rewrite !total_cons, IH. ring. Qed.
Lemma total_scal {A} c (f : A -> R) l : total (fun x => c * f x) l = c * total f l.
Proof. induction l as [|y l IH]; [simpl; ring|]. rewrite !total_cons, IH. ring. Qed.
Lemma total_zero {A} (l : list A) : total (fun _ => 0) l = 0.
Proof. induction l as [|y l IH]; [reflexivity|]. rewrite total_cons, IH. ring. Qed.
Lemma total_nonneg {A} (f : A -> R) l : (forall x, In x l -> 0 <= f x) -> 0 <= total f l.
Proof.
  induction l as [|y l IH]; intros H; simpl; [lra|].
  assert (0 <= f y) by (apply H; left; reflexivity).
  assert (0 <= total f l) by (apply IH; intros; apply H; right; assumption). unfold total in *. lra.
Qed.
Lemma total_swap {A B} (f : A -> B -> R) l k :
  total (fun x => total (f x) k) l = total (fun y => total (fun x => f x y) l) k.
Proof.
  induction l as [|x l IH]; simpl; [symmetry; apply total_zero|].
  change (total (f x) k + total (fun x => total (f x) k) l
          = total (fun y => f x y + total (fun x => f x y) l) k).
  rewrite total_plus, IH. reflexivity.
Qed.
Lemma total_perm {A} (f : A -> R) l l' : Permutation l l' -> total f l = total f l'.
Proof. induction 1; simpl; unfold total in *; try lra. Qed.

(** Picking one element out of a duplicate-free list. *)
Lemma total_pick (c : Z -> R) l f : NoDup l -> In f l ->
  total (fun g => if Z.eqb f g then c g else 0) l = c f.
Proof.
  induction 1 as [|g l Hn Hd IH]; intros HIn; [destruct HIn|]. simpl.
  change (fold_right _ 0 l) with (total (fun g => if Z.eqb f g then c g else 0) l).
  destruct (Z.eqb_spec f g) as [->|Hne].
  - rewrite (total_ext _ (fun _ => 0)); [rewrite total_zero; ring|].
    intros h Hh. destruct (Z.eqb_spec g h); [subst; contradiction|reflexivity].
  - destruct HIn as [->|HIn]; [contradiction|]. rewrite IH by assumption. ring.
Qed.

Definition fs (products : list (Z * R)) (f : Z) : R := total (fun p => if Z.eqb (fst p) f then snd p else 0) products.

Lemma firm_share_fs products f : firm_share products f = fs products f.
Proof.
  unfold firm_share, fs, lsum, total. induction products as [|p l IH]; simpl; [reflexivity|].
  destruct (Z.eqb (fst p) f); simpl; rewrite IH; ring.
Qed.

(** Weighted sums over firms are sums over products. *)
Lemma firms_to_products products firms (c : Z -> R) :
  NoDup firms -> (forall f, In f firms <-> exists s, In (f, s) products) ->
  total (fun f => c f * fs products f) firms = total (fun p => c (fst p) * snd p) products.
Proof.
  intros Nd Hf. unfold fs.
  rewrite (total_ext _ (fun f => total (fun p => if Z.eqb (fst p) f then c f * snd p else 0) products)).
  - rewrite (total_swap (fun f p => if Z.eqb (fst p) f then c f * snd p else 0)).
    apply total_ext. intros [f s] Hp. simpl.
    apply (total_pick (fun g => c g * s)); [assumption|]. apply Hf. exists s; assumption.
  - intros f _. rewrite <- total_scal. apply total_ext. intros p _. destruct (Z.eqb (fst p) f); ring.
Qed.

Lemma unique_covers (products : list (Z * R)) f :
  In f (np_unique (map fst products)) <-> exists s, In (f, s) products.
Proof.
  rewrite np_unique_in, in_map_iff. split.
  - intros [[g s] [<- H]]. exists s. exact H.
  - intros [s H]. exists (f, s). split; [reflexivity|assumption].
Qed.

Lemma unique_nodup l : NoDup (np_unique l).
Proof. apply increasing_nodup, np_unique_increasing. Qed.

Lemma hhi_products products : 
  compute_hhi products
  = 10000 * total (fun p => fs products (fst p) / total snd products / total snd products * snd p) products.
Proof.
  unfold compute_hhi. f_equal. rewrite (lsum_total snd), lsum_total.
  rewrite <- (firms_to_products products _ (fun f => fs products f / total snd products / total snd products)
    (unique_nodup _) (unique_covers products)).
  apply total_ext; intros f _. cbv zeta. rewrite firm_share_fs. unfold Rdiv. ring.
Qed.

Lemma hhi_normalised products : is_hhi true products (compute_hhi products).
Proof.
  intros firms Nd Hf. rewrite hhi_products. f_equal. cbv zeta.
  rewrite <- (firms_to_products products firms (fun f => fs products f / total snd products / total snd products)
    Nd Hf).
  apply total_ext; intros f _. unfold fs, Rdiv. ring.
Qed.

Lemma hhi_order products products' : Permutation products products' -> compute_hhi products = compute_hhi products'.
Proof.
  intros P. rewrite !hhi_products. f_equal.
  rewrite (total_perm snd _ _ P), (total_perm _ _ _ P). apply total_ext; intros p _.
  unfold fs. rewrite (total_perm _ _ _ P). reflexivity.
Qed.

Lemma fs_nonneg products f : (forall p, In p products -> 0 <= snd p) -> 0 <= fs products f.
Proof.
  intros H. apply total_nonneg; intros p Hp. destruct (Z.eqb (fst p) f); [apply H; assumption|lra].
Qed.
Lemma fs_le products f : (forall p, In p products -> 0 <= snd p) -> fs products f <= total snd products.
Proof.
  intros H. assert (0 <= total (fun p => snd p + -1 * (if Z.eqb (fst p) f then snd p else 0)) products).
  { apply total_nonneg; intros p Hp. specialize (H p Hp). destruct (Z.eqb (fst p) f); lra. }
  rewrite total_plus, total_scal in H0. fold (fs products f) in H0. change (fun x : Z * R => snd x) with (@snd Z R) in H0. lra.
Qed.

Lemma hhi_bounds products :
  (forall p, In p products -> 0 <= snd p) -> 0 < total snd products ->
  0 <= compute_hhi products <= 10000.
Proof.
  intros H HS. rewrite hhi_products. set (S := total snd products) in *.
  assert (HI : 0 < / S) by (apply Rinv_0_lt_compat; assumption). split.
  - apply Rmult_le_pos; [lra|]. apply total_nonneg; intros p Hp. assert (Hs := H p Hp).
    assert (F := fs_nonneg products (fst p) H).
    unfold Rdiv. repeat apply Rmult_le_pos; lra.
  - rewrite <- (Rmult_1_r 10000) at 2. apply Rmult_le_compat_l; [lra|].
    assert (E : total (fun p => / S * snd p + -1 * (fs products (fst p) / S / S * snd p)) products
                = 1 - total (fun p => fs products (fst p) / S / S * snd p) products).
    { rewrite total_plus, !total_scal. fold S. change (fun x : Z * R => snd x) with (@snd Z R). fold S. field. lra. }
    assert (P : 0 <= total (fun p => / S * snd p + -1 * (fs products (fst p) / S / S * snd p)) products); [|lra].
    apply total_nonneg; intros p Hp. assert (Hs := H p Hp). assert (F := fs_le products (fst p) H). fold S in F.
    replace (/ S * snd p + -1 * (fs products (fst p) / S / S * snd p))
      with ((S - fs products (fst p)) * / S * / S * snd p) by (field; lra).
    repeat apply Rmult_le_pos; lra.
Qed.

(** The number of firms gives a lower bound. *)
Lemma hhi_lower products firms :
  NoDup firms -> (forall f, In f firms <-> exists s, In (f, s) products) ->
  0 < total snd products -> 10000 / INR (length firms) <= compute_hhi products.
Proof.
  intros Nd Hf HS. rewrite (hhi_normalised products firms Nd Hf). cbv zeta. cbn [fst snd].
  set (S := total snd products) in *.
  change (fun f => _ * _) with (fun f => fs products f / S * (fs products f / S)).
  set (n := length firms).
  assert (Hn : 0 < INR n).
  { apply lt_0_INR. unfold n. destruct firms as [|f l]; [|simpl; lia]. exfalso.
    destruct products as [|[f s] q]; [unfold S in HS; simpl in HS; lra|].
    apply (Hf f). exists s. left; reflexivity. }
  assert (ET : total (fs products) firms = S).
  { rewrite (total_ext _ (fun f => 1 * fs products f)) by (intros; ring).
    rewrite (firms_to_products products firms (fun _ => 1) Nd Hf). apply total_ext; intros; ring. }
  assert (EC : forall c : R, total (fun _ => c) firms = INR n * c).
  { intros c. unfold n. clear. induction firms as [|f l IH]; [simpl; ring|].
    cbn [length]. rewrite S_INR. unfold total in *. cbn [fold_right]. rewrite IH. ring. }
  assert (P : 0 <= total (fun f => (fs products f / S - / INR n) * (fs products f / S - / INR n)) firms).
  { apply total_nonneg; intros f _. assert (Q := Rle_0_sqr (fs products f / S - / INR n)). exact Q. }
  rewrite (total_ext _ (fun f => fs products f / S * (fs products f / S)
     + (-2 * / INR n * / S * fs products f + / INR n * / INR n))) in P.
  - rewrite total_plus, total_plus, total_scal, EC, ET in P.
    replace (10000 / INR n) with (10000 * / INR n) by reflexivity.
    apply Rmult_le_compat_l; [lra|].
    replace (-2 * / INR n * / S * S + INR n * (/ INR n * / INR n)) with (- / INR n) in P by (field; lra). lra.
  - intros f _. field. lra.
Qed.

Definition merge (f g : Z) (products : list (Z * R)) : list (Z * R) :=
  map (fun p => (if Z.eqb (fst p) g then f else fst p, snd p)) products.

Lemma total_map {A B} (h : A -> B) (c : B -> R) l : total c (map h l) = total (fun x => c (h x)) l.
Proof. induction l as [|x l IH]; [reflexivity|]. cbn [map]. rewrite !total_cons, IH. reflexivity. Qed.

Lemma merge_total f g products : total snd (merge f g products) = total snd products.
Proof. unfold merge. rewrite total_map. reflexivity. Qed.

Lemma merge_fs f g products h : f <> g ->
  fs (merge f g products) h = if Z.eqb h f then fs products f + fs products g
                              else if Z.eqb h g then 0 else fs products h.
Proof.
  intros Hne. unfold fs, merge. rewrite total_map. cbn [fst snd].
  destruct (Z.eqb_spec h f) as [->|H1].
  - rewrite <- total_plus. apply total_ext; intros [a s] _. cbn [fst snd].
    destruct (Z.eqb_spec a g), (Z.eqb_spec a f); subst; try contradiction;
      rewrite ?Z.eqb_refl; try ring; destruct (Z.eqb_spec a f); try contradiction; ring.
  - destruct (Z.eqb_spec h g) as [->|H2].
    + transitivity (total (fun _ : Z * R => 0) products); [|apply total_zero]. apply total_ext; intros [a s] _. cbn [fst snd].
      destruct (Z.eqb_spec a g); [destruct (Z.eqb_spec f g)|destruct (Z.eqb_spec a g)]; congruence.
    + apply total_ext; intros [a s] _. cbn [fst snd].
      destruct (Z.eqb_spec a g) as [->|]; [|reflexivity].
      destruct (Z.eqb_spec f h), (Z.eqb_spec g h); congruence.
Qed.

Lemma hhi_merger products f g : f <> g -> total snd products <> 0 ->
  compute_hhi (merge f g products) - compute_hhi products
  = 20000 * (fs products f / total snd products) * (fs products g / total snd products).
Proof.
  intros Hne HS. rewrite !hhi_products, merge_total. set (S := total snd products) in *.
  unfold merge at 2. rewrite total_map. cbn [fst snd].
  rewrite <- Rmult_minus_distr_l.
  rewrite (total_ext _ (fun p => fs products (fst p) / S / S * snd p
     + (fs products g / S / S * (if Z.eqb (fst p) f then snd p else 0)
        + fs products f / S / S * (if Z.eqb (fst p) g then snd p else 0)))).
  - rewrite !total_plus, !total_scal. fold (fs products f). fold (fs products g). field. assumption.
  - intros [a s] _. cbn [fst snd]. rewrite merge_fs by assumption.
    destruct (Z.eqb_spec a g) as [->|H1].
    + rewrite Z.eqb_refl. destruct (Z.eqb_spec g f); [congruence|]. field; assumption.
    + destruct (Z.eqb_spec a f) as [->|H2].
      * field; assumption.
      * destruct (Z.eqb_spec a g); [contradiction|]. ring.
Qed.

Lemma hhi_documented_refuted :
  exists products, (forall p, In p products -> 0 < snd p) /\ total snd products < 1 /\
  ~ is_hhi false products (compute_hhi products).
Proof.
  exists [(1%Z, / 4)]. split; [|split].
  - intros p [<-|[]]. simpl. lra.
  - simpl. lra.
  - intros H. specialize (H [1%Z]). 
    assert (E : compute_hhi [(1%Z, / 4)] = 10000).
    { unfold compute_hhi, firm_share, lsum. simpl. field. }
    rewrite E in H.
    assert (B : 10000 = 10000 * (/ 4 * / 4)); [|lra].
    rewrite H at 1.
    + simpl. field.
    + repeat constructor. simpl; tauto.
    + intros f. simpl. split.
      * intros [<-|[]]. exists (/ 4). left; reflexivity.
      * intros [s [E'|[]]]. injection E' as <- _. left; reflexivity.
Qed.

(* ---------- aggregate elasticities ---------- *)

Lemma aggregate_limit M observed :
  valid_market (fm M) -> good_columns M (var0 M) ->
  (forall j, (j < mJ (fm M))%nat -> observed j = shares_at M (var0 M) j) ->
  let J := mJ (fm M) in
  limit1_in (aggregate_elasticity M observed) (fun f => f <> 0)
    (sumn J (fun j => sumn J (fun k => shares_jacobian M (var0 M) j k * var0 M k))) 0.
Proof.
  intros V G Ho J.
  assert (D : derivable_pt_lim (fun f => sumn J (fun j => shares_at M (fun k => (1 + f) * var0 M k) j)) 0
     (sumn J (fun j => sumn J (fun k => shares_jacobian M (var0 M) j k * var0 M k)))).
  { apply (dlim_sumn J (fun j f => shares_at M (fun k => (1 + f) * var0 M k) j)). intros j Hj.
    assert (D1 := shares_price_path M (fun f k => (1 + f) * var0 M k) 0 (var0 M) V).
    assert (EX : (fun k => (1 + 0) * var0 M k) = var0 M).
    { apply functional_extensionality; intros; ring. }
    cbv beta in D1. rewrite EX in D1. apply D1; try assumption.
    intros k Hk. eapply dlim_eq; [|apply dlim_scal_r, dlim_plus; [apply dlim_const|apply dlim_id]]. ring. }
  intros e He. destruct (D e He) as [d Hd]. exists d. split; [apply cond_pos|].
  intros f [Hf1 Hf2]. simpl in *. unfold R_dist in *. rewrite Rminus_0_r in Hf2.
  specialize (Hd f Hf1 Hf2). rewrite Rplus_0_l in Hd.
  unfold aggregate_elasticity. fold J. rewrite sumn_minus.
  rewrite (sumn_ext J observed (shares_at M (fun k => (1 + 0) * var0 M k))).
  - exact Hd.
  - intros j Hj. rewrite Ho by assumption. f_equal. apply functional_extensionality; intros; ring.
Qed.
