(** Proofs about what products are worth. *)
From Coq Require Import Reals Lra Lia List Bool Arith FunctionalExtensionality.
From Verif Require Import Base DemandModel DemandSpec DemandProofs DemandShares DemandElim SupplyModel SupplySpec SupplyProofs WelfareModel WelfareSpec WelfareProofs ValueSpec.
Local Open Scope R_scope.

Lemma ln_below t : 0 < t -> ln t <= t - 1.
Proof. intro P. assert (X := exp_ineq1_le (ln t)). rewrite exp_ln in X by exact P. lra. Qed.

(* ---------- Groups from which products are eliminated ---------- *)

Section Groups.
Variables (J H : nat) (grp : nat -> nat) (r : nat -> R) (inc mask : nat -> bool) (V : nat -> R).
Hypothesis Hr : forall h, (h < H)%nat -> 0 <= r h < 1.
Hypothesis Hg : forall j, (j < J)%nat -> (grp j < H)%nat.
Let left (j : nat) : bool := inc j && negb (mask j).
Notation W := (group_weight J grp r inc V).
Notation W' := (group_weight J grp r left V).
Notation A := (inclusive J grp r inc V).
Notation B := (inclusive J grp r left V).
Definition part (h : nat) : R := sumn J (fun j => if Nat.eqb (grp j) h then if mask j then within_group J grp r inc V j * W h else 0 else 0).

Lemma inclusive_split h : A h - B h = sumn J (fun j => if Nat.eqb (grp j) h then if mask j then if inc j then exp (V j / (1 - r h)) else 0 else 0 else 0).
Proof.
  unfold inclusive. rewrite <- sumn_minus. apply sumn_ext. intros j _. unfold left. destruct (inc j), (mask j), (Nat.eqb (grp j) h); cbn [andb negb]; ring.
Qed.
Lemma part_is h : 0 < A h -> part h = (A h - B h) / A h * W h.
Proof.
  intro P. rewrite inclusive_split. unfold part. match goal with |- _ = ?a / ?b * ?c => replace (a / b * c) with (a * (/ b * c)) by (unfold Rdiv; ring) end. rewrite <- sumn_scal_r. apply sumn_ext. intros j _. unfold within_group.
  destruct (Nat.eqb_spec (grp j) h) as [ -> |]; [|ring]. destruct (mask j); [|ring]. destruct (inc j); [|ring]. field. lra.
Qed.
Lemma B_range h : 0 <= B h <= A h.
Proof.
  split; unfold inclusive.
  - apply sumn_nonneg. intros j _. destruct (_ && _); [apply Rlt_le, exp_pos|lra].
  - apply sumn_le. intros j _. unfold left. destruct (inc j), (mask j), (Nat.eqb (grp j) h); cbn [andb negb]; try lra; apply Rlt_le, exp_pos.
Qed.
Lemma left_implies h : existsb (fun k => inc k && Nat.eqb (grp k) h) (seq 0 J) = false -> existsb (fun k => left k && Nat.eqb (grp k) h) (seq 0 J) = false.
Proof.
  intro E. apply not_true_is_false. intro E2. apply existsb_exists in E2. destruct E2 as (k & Hk & E2). unfold left in E2.
  assert (T : existsb (fun k => inc k && Nat.eqb (grp k) h) (seq 0 J) = true).
  { apply existsb_exists. exists k. split; [exact Hk|]. destruct (inc k); [|discriminate E2]. destruct (Nat.eqb (grp k) h); [reflexivity|]. rewrite andb_false_r in E2. discriminate E2. }
  rewrite E in T. discriminate T.
Qed.
Lemma part_bound h : (h < H)%nat -> W h - part h <= W' h /\ ((r h = 0 \/ forall j k, (j < J)%nat -> (k < J)%nat -> grp j = h -> grp k = h -> mask j = mask k) -> W h - part h = W' h).
Proof.
  intro Hh. assert (N := group_weight_nonneg J grp r left V h). destruct (existsb (fun k => inc k && Nat.eqb (grp k) h) (seq 0 J)) eqn:E.
  2: { assert (Wz : W h = 0) by (unfold group_weight; rewrite E; reflexivity). assert (Wz' : W' h = 0) by (unfold group_weight; rewrite (left_implies h E); reflexivity).
       assert (Pz : part h = 0). { unfold part. rewrite Wz. rewrite (sumn_ext J _ (fun _ => 0)); [apply sumn_zero|]. intros j _. destruct (Nat.eqb (grp j) h), (mask j); ring. }
       rewrite Wz, Wz', Pz. split; [lra|intros _; ring]. }
  assert (PA := inclusive_pos J grp r inc V h E). assert (RB := B_range h). rewrite (part_is h PA).
  assert (WE : W h = Rpower (A h) (1 - r h)) by (apply group_weight_inclusive, E). assert (WP : 0 < W h) by (rewrite WE; apply exp_pos).
  assert (X : W h - (A h - B h) / A h * W h = W h * (B h / A h)) by (field; lra). rewrite X.
  destruct (existsb (fun k => left k && Nat.eqb (grp k) h) (seq 0 J)) eqn:E2.
  2: { rewrite (inclusive_zero J grp r left V h E2). assert (Wz' : W' h = 0) by (unfold group_weight; rewrite E2; reflexivity). rewrite Wz'. unfold Rdiv. rewrite Rmult_0_l, Rmult_0_r. split; [lra|reflexivity]. }
  assert (PB := inclusive_pos J grp r left V h E2). assert (WE2 : W' h = Rpower (B h) (1 - r h)) by (apply group_weight_inclusive, E2).
  assert (T : 0 < B h / A h) by (apply Rdiv_lt_0_compat; assumption).
  assert (Y : W' h = W h * Rpower (B h / A h) (1 - r h)).
  { rewrite WE, WE2. rewrite Rpower_mult_distr by assumption. f_equal. field. lra. }
  rewrite Y. specialize (Hr h Hh). split.
  - apply Rmult_le_compat_l; [lra|]. rewrite <- (exp_ln (B h / A h)) at 1 by exact T. unfold Rpower.
    assert (Lz : ln (B h / A h) <= 0). { assert (Z := ln_below (B h / A h) T). assert (B h / A h <= 1); [|lra]. apply Rmult_le_reg_r with (A h); [exact PA|]. unfold Rdiv. rewrite Rmult_assoc, Rinv_l by lra. lra. }
    assert (M : ln (B h / A h) <= (1 - r h) * ln (B h / A h)) by nra.
    destruct (Rle_lt_or_eq_dec _ _ M) as [M2|M2]; [left; apply exp_increasing, M2|right; f_equal; exact M2].
  - intros [Z|C].
    + rewrite Z, Rminus_0_r, Rpower_1 by exact T. reflexivity.
    + (* nothing of the group is eliminated *)
      assert (EB : B h = A h).
      { apply existsb_exists in E2. destruct E2 as (k & Hk & E2). apply in_seq in Hk. apply andb_true_iff in E2. destruct E2 as [E2 E3]. apply Nat.eqb_eq in E3. unfold left in E2. apply andb_true_iff in E2. destruct E2 as [_ E2]. apply negb_true_iff in E2.
        unfold inclusive. apply sumn_ext. intros j Hj. unfold left. destruct (Nat.eqb_spec (grp j) h) as [Ej|]; [|rewrite !andb_false_r; reflexivity]. rewrite (C j k Hj ltac:(lia) Ej E3), E2. cbn [negb]. rewrite andb_true_r. reflexivity. }
      rewrite EB. replace (A h / A h) with 1 by (field; lra). unfold Rpower. rewrite ln_1, Rmult_0_r, exp_0. ring.
Qed.

Lemma part_strict j k : (j < J)%nat -> (k < J)%nat -> grp j = grp k -> inc j = true -> inc k = true -> mask j = true -> mask k = false -> 0 < r (grp j) -> W (grp j) - part (grp j) < W' (grp j).
Proof.
  intros Hj Hk Eg Ij Ik Mj Mk Rp. set (h := grp j) in *. assert (Hh : (h < H)%nat) by (apply Hg, Hj).
  assert (E : existsb (fun k => inc k && Nat.eqb (grp k) h) (seq 0 J) = true) by (apply existsb_intro with j; [exact Hj|rewrite Ij; unfold h; apply Nat.eqb_refl]).
  assert (E2 : existsb (fun k => left k && Nat.eqb (grp k) h) (seq 0 J) = true) by (apply existsb_intro with k; [exact Hk|unfold left; rewrite Ik, Mk, <- Eg; cbn [andb negb]; unfold h; apply Nat.eqb_refl]).
  assert (PA := inclusive_pos J grp r inc V h E). assert (PB := inclusive_pos J grp r left V h E2).
  assert (D : 0 < A h - B h).
  { rewrite inclusive_split. apply Rlt_le_trans with (exp (V j / (1 - r h))); [apply exp_pos|].
    match goal with |- _ <= sumn J ?f => assert (X : f j <= sumn J f); [apply (sumn_ge_term J f); [|exact Hj]; intros l _; cbv beta|] end.
    { destruct (Nat.eqb (grp l) h), (mask l), (inc l); try lra; apply Rlt_le, exp_pos. }
    cbv beta in X. unfold h in X at 1. rewrite Nat.eqb_refl, Mj, Ij in X. exact X. }
  rewrite (part_is h PA). assert (WE : W h = Rpower (A h) (1 - r h)) by (apply group_weight_inclusive, E). assert (WP : 0 < W h) by (rewrite WE; apply exp_pos).
  assert (X : W h - (A h - B h) / A h * W h = W h * (B h / A h)) by (field; lra). rewrite X.
  assert (WE2 : W' h = Rpower (B h) (1 - r h)) by (apply group_weight_inclusive, E2).
  assert (T : 0 < B h / A h) by (apply Rdiv_lt_0_compat; assumption).
  assert (Y : W' h = W h * Rpower (B h / A h) (1 - r h)).
  { rewrite WE, WE2. rewrite Rpower_mult_distr by assumption. f_equal. field. lra. }
  rewrite Y. apply Rmult_lt_compat_l; [exact WP|]. rewrite <- (exp_ln (B h / A h)) at 1 by exact T. unfold Rpower. apply exp_increasing.
  assert (T1 : B h / A h < 1) by (apply Rmult_lt_reg_r with (A h); [exact PA|]; unfold Rdiv; rewrite Rmult_assoc, Rinv_l by lra; lra).
  assert (Z := ln_below (B h / A h) T). assert (0 < r h * - ln (B h / A h)) by (apply Rmult_lt_0_compat; lra). lra.
Qed.
Lemma parts_total : sumn H part = (1 + sumn H W) * chosen J mask (nested J H grp r inc true V).
Proof.
  unfold chosen. rewrite (sumn_by_group J H grp _ Hg). rewrite <- sumn_scal. apply sumn_ext. intros h _. unfold part. rewrite <- sumn_scal. apply sumn_ext. intros j _.
  destruct (Nat.eqb_spec (grp j) h) as [ <- |]; [|ring]. destruct (mask j); [|ring]. unfold nested, group_share. cbn [indR].
  assert (X := weights_nonneg J H grp r inc V). field. lra.
Qed.
Lemma remaining_weight : (1 + sumn H W) * (1 - chosen J mask (nested J H grp r inc true V)) <= 1 + sumn H W' /\
  ((forall h, (h < H)%nat -> r h = 0 \/ forall j k, (j < J)%nat -> (k < J)%nat -> grp j = h -> grp k = h -> mask j = mask k) ->
   (1 + sumn H W) * (1 - chosen J mask (nested J H grp r inc true V)) = 1 + sumn H W').
Proof.
  assert (T := parts_total). assert (X : (1 + sumn H W) * (1 - chosen J mask (nested J H grp r inc true V)) = 1 + sumn H (fun h => W h - part h)) by (rewrite sumn_minus, T; ring).
  rewrite X. split.
  - apply Rplus_le_compat_l. apply sumn_le. intros h Hh. apply (part_bound h Hh).
  - intro C. f_equal. apply sumn_ext. intros h Hh. apply (part_bound h Hh), C, Hh.
Qed.
Lemma remaining_strict j k : (j < J)%nat -> (k < J)%nat -> grp j = grp k -> inc j = true -> inc k = true -> mask j = true -> mask k = false -> 0 < r (grp j) ->
  (1 + sumn H W) * (1 - chosen J mask (nested J H grp r inc true V)) < 1 + sumn H W'.
Proof.
  intros Hj Hk Eg Ij Ik Mj Mk Rp. assert (T := parts_total). assert (X : (1 + sumn H W) * (1 - chosen J mask (nested J H grp r inc true V)) = 1 + sumn H (fun h => W h - part h)) by (rewrite sumn_minus, T; ring).
  rewrite X. apply Rplus_lt_compat_l. assert (Y : 0 < sumn H (fun h => W' h - (W h - part h))).
  { apply Rlt_le_trans with (W' (grp j) - (W (grp j) - part (grp j))); [assert (Z := part_strict j k Hj Hk Eg Ij Ik Mj Mk Rp); lra|].
    apply (sumn_ge_term H (fun h => W' h - (W h - part h))); [intros h Hh; assert (Z := proj1 (part_bound h Hh)); lra|apply Hg, Hj]. }
  rewrite sumn_minus in Y. lra.
Qed.
End Groups.

(* ---------- Surplus ---------- *)

Section Surplus.
Variables (M : full_market) (i : nat) (a : R).
Hypothesis V : valid_market (fm M).
Hypothesis G : forall y, good_columns M y.
Hypothesis E1 : eps_scale (fm M) = 1.
Hypothesis N : no_income_effects (mJ (fm M)) (price_utility M i) a.
Notation m := (fm M).
Notation J := (mJ (fm M)).
Definition prob (avail : nat -> option (nat -> bool)) (mask : option (nat -> bool)) (safe : bool) (x : nat -> R) (j : nat) : R :=
  fst (probabilities_linear (fm M) (choice_with true (avail i) None mask) safe (update_delta M x) (update_mu M x i)) j.
Notation av := (fun avail (i : nat) => option_map (fun (b : nat -> bool) j => indR (b j)) (avail i)).

Lemma prob_nested avail mask safe x j : (j < J)%nat -> prob avail mask safe x j = nested J (grpn m) (gidx m) (grhox m) (included (avail i) None mask) true (price_utility M i x) j.
Proof.
  intro Hj. unfold prob. rewrite probabilities_nested by assumption. f_equal. apply functional_extensionality. intro k. unfold utility. rewrite E1. unfold price_utility. field.
Qed.
Lemma outside_is avail mask safe x : 1 - sumn J (prob avail mask safe x) = / (1 + surplus_weights m (included (avail i) None mask) (price_utility M i x)).
Proof.
  rewrite (sumn_ext J _ _ (fun j Hj => prob_nested avail mask safe x j Hj)).
  rewrite nested_total by (intros j Hj; apply gidx_lt; assumption). cbn [indR]. fold (surplus_weights m (included (avail i) None mask) (price_utility M i x)).
  assert (X := surplus_weights_nonneg m (included (avail i) None mask) (price_utility M i x)). field. lra.
Qed.
Lemma surplus_is avail mask x : individual_surplus M (av avail) mask x i = ln (1 + surplus_weights m (included (avail i) None mask) (price_utility M i x)) / a.
Proof. cbv beta. rewrite (income_surplus_exact M avail mask x i a V G E1 N). cbv zeta. rewrite <- surplus_expected_max. reflexivity. Qed.
Lemma surplus_outside avail mask safe x : 0 < 1 - sumn J (prob avail mask safe x) /\ individual_surplus M (av avail) mask x i = - ln (1 - sumn J (prob avail mask safe x)) / a.
Proof.
  rewrite outside_is. assert (X := surplus_weights_nonneg m (included (avail i) None mask) (price_utility M i x)). split; [apply Rinv_0_lt_compat; lra|].
  rewrite surplus_is. rewrite ln_Rinv by lra. unfold Rdiv. ring.
Qed.

Lemma eliminated_included avail mask j : included (avail i) None (Some mask) j = included (avail i) None None j && negb (mask j).
Proof. unfold included. rewrite !andb_true_r. reflexivity. Qed.

Lemma value_bound avail mask safe x : 0 < a -> (mH m <> O -> forall h, (h < mH m)%nat -> 0 <= grho m h) ->
  let p := prob avail None safe x in let c := chosen J mask p in
  let value := individual_surplus M (av avail) None x i - individual_surplus M (av avail) (Some mask) x i in
  0 <= c < 1 /\ value <= - ln (1 - c) / a /\ (mH m = O \/ whole_nests J (gid m) mask -> value = - ln (1 - c) / a) /\
  (forall j k, mH m <> O -> (j < J)%nat -> (k < J)%nat -> gid m j = gid m k -> included (avail i) None None j = true -> included (avail i) None None k = true -> mask j = true -> mask k = false -> 0 < grho m (gid m j) -> value < - ln (1 - c) / a).
Proof.
  intros Ha Hrho p c value.
  assert (Hr : forall h, (h < grpn m)%nat -> 0 <= grhox m h < 1).
  { intros h Hh. unfold grhox, grpn in *. destruct (Nat.eqb_spec (mH m) 0) as [Z|Z]; [lra|]. split; [apply Hrho; assumption|apply (vm_rho m V Z); exact Hh]. }
  assert (Hg : forall j, (j < J)%nat -> (gidx m j < grpn m)%nat) by (intros j Hj; apply gidx_lt; assumption).
  set (inc := included (avail i) None None). set (U := price_utility M i x).
  assert (Ec : c = chosen J mask (nested J (grpn m) (gidx m) (grhox m) inc true U)).
  { unfold c, chosen. apply sumn_ext. intros j Hj. destruct (mask j); [|reflexivity]. apply prob_nested, Hj. }
  destruct (remaining_weight J (grpn m) (gidx m) (grhox m) inc mask U Hr Hg) as [B1 B2]. assert (B3 := remaining_strict J (grpn m) (gidx m) (grhox m) inc mask U Hr Hg). rewrite <- Ec in B1, B2, B3.
  assert (I2 : (fun j => inc j && negb (mask j)) = included (avail i) None (Some mask)) by (apply functional_extensionality; intro j; symmetry; apply eliminated_included).
  rewrite I2 in B1, B2, B3. fold (surplus_weights m inc U) in B1, B2, B3. fold (surplus_weights m (included (avail i) None (Some mask)) U) in B1, B2, B3.
  assert (P := surplus_weights_nonneg m inc U). assert (P' := surplus_weights_nonneg m (included (avail i) None (Some mask)) U).
  assert (C0 : 0 <= c < 1).
  { assert (Hn : forall j, (j < J)%nat -> 0 <= p j).
    { intros j Hj. unfold p. rewrite prob_nested by exact Hj. fold inc U. destruct (inc j) eqn:Ej; [left; apply nested_pos; [exact Hj|apply Hg, Hj|exact Ej]|].
      unfold nested, within_group. rewrite Ej, Rmult_0_l. apply Rle_refl. }
    split; [unfold c, chosen; apply sumn_nonneg; intros j Hj; destruct (mask j); [apply Hn, Hj|lra]|].
    assert (c <= sumn J p) by (unfold c, chosen; apply sumn_le; intros j Hj; destruct (mask j); [lra|apply Hn, Hj]).
    destruct (surplus_outside avail None safe x) as [O _]. fold p in O. lra. }
  split; [exact C0|]. unfold value. rewrite !surplus_is. fold inc U. set (S := 1 + surplus_weights m inc U) in *. set (S' := 1 + surplus_weights m (included (avail i) None (Some mask)) U) in *.
  assert (SP : 0 < S) by (unfold S; lra). assert (SP' : 0 < S') by (unfold S'; lra).
  assert (L1 : ln (S * (1 - c)) = ln S + ln (1 - c)) by (apply ln_mult; lra).
  assert (Z : ln S / a - ln S' / a = (ln S - ln S') / a) by (unfold Rdiv; ring). rewrite Z. split; [|split].
  - unfold Rdiv. apply Rmult_le_compat_r; [left; apply Rinv_0_lt_compat, Ha|].
    assert (X : ln (S * (1 - c)) <= ln S').
    { destruct (Rle_lt_or_eq_dec _ _ B1) as [Q|Q]; [left; apply ln_increasing; [apply Rmult_lt_0_compat; lra|exact Q]|right; f_equal; exact Q]. }
    lra.
  - intro K. rewrite <- B2; [rewrite L1; unfold Rdiv; ring|]. intros h Hh. destruct (Nat.eqb_spec (mH m) 0) as [Z0|Z0].
    + left. unfold grhox. rewrite Z0. reflexivity.
    + destruct K as [K|K]; [contradiction|]. right. intros j k Hj Hk Ej Ek. apply K; [exact Hj|exact Hk|]. unfold gidx in Ej, Ek. rewrite (proj2 (Nat.eqb_neq _ _) Z0) in Ej, Ek. congruence.
  - intros j k Z0 Hj Hk Eg Ij Ik Mj Mk Rp. unfold Rdiv. apply Rmult_lt_compat_r; [apply Rinv_0_lt_compat, Ha|].
    assert (X : ln (S * (1 - c)) < ln S').
    { apply ln_increasing; [apply Rmult_lt_0_compat; lra|]. assert (Eb := proj2 (Nat.eqb_neq _ _) Z0). apply (B3 j k Hj Hk); try assumption; unfold gidx, grhox; rewrite Eb; assumption. }
    lra.
Qed.
End Surplus.

(** Jensen's inequality for logarithms. *)
Lemma jensen n (w t : nat -> R) : (forall k, (k < n)%nat -> 0 <= w k) -> sumn n w = 1 -> (forall k, (k < n)%nat -> 0 < t k) -> 
  0 < sumn n (fun k => w k * t k) /\ sumn n (fun k => w k * ln (t k)) <= ln (sumn n (fun k => w k * t k)).
Proof.
  intros Hw Sw Ht. set (T := sumn n (fun k => w k * t k)).
  assert (T0 : 0 < T).
  { assert (N : 0 <= T) by (apply sumn_nonneg; intros k Hk; apply Rmult_le_pos; [apply Hw, Hk|left; apply Ht, Hk]).
    destruct (Rle_lt_or_eq_dec _ _ N) as [Q|Q]; [exact Q|]. exfalso.
    assert (Z : forall k, (k < n)%nat -> w k = 0).
    { intros k Hk. assert (X : w k * t k <= T) by (apply (sumn_ge_term n (fun k => w k * t k)); [intros l Hl; apply Rmult_le_pos; [apply Hw, Hl|left; apply Ht, Hl]|exact Hk]).
      assert (Y := Hw k Hk). assert (Y2 := Ht k Hk). assert (w k * t k = 0) by (assert (0 <= w k * t k) by (apply Rmult_le_pos; lra); lra).
      apply Rmult_integral in H. destruct H; lra. }
    rewrite (sumn_ext n w (fun _ => 0) Z), sumn_zero in Sw. lra. }
  split; [exact T0|].
  assert (K : sumn n (fun k => w k * ln (t k)) <= sumn n (fun k => w k * ln T + (w k * t k * / T - w k))).
  { apply sumn_le. intros k Hk. assert (Y := Ht k Hk). assert (X := ln_below (t k / T) (Rdiv_lt_0_compat _ _ Y T0)).
    unfold Rdiv in X. rewrite ln_mult, ln_Rinv in X by (try apply Rinv_0_lt_compat; assumption).
    replace (w k * ln T + (w k * t k * / T - w k)) with (w k * (ln T + (t k * / T - 1))) by ring. apply Rmult_le_compat_l; [apply Hw, Hk|lra]. }
  rewrite sumn_plus, sumn_minus, !sumn_scal_r, Sw in K. fold T in K. rewrite Rinv_r in K by lra. lra.
Qed.

Lemma heterogeneous M a avail mask safe x :
  valid_market (fm M) -> (forall y, good_columns M y) -> eps_scale (fm M) = 1 -> 0 < a ->
  (forall i, (i < fI M)%nat -> no_income_effects (mJ (fm M)) (price_utility M i) a) ->
  (forall i, (i < fI M)%nat -> 0 <= fw M i) -> sumn (fI M) (fw M) = 1 ->
  (mH (fm M) <> O -> forall h, (h < mH (fm M))%nat -> 0 <= grho (fm M) h) ->
  mH (fm M) = O \/ whole_nests (mJ (fm M)) (gid (fm M)) mask ->
  let av := fun i => option_map (fun (b : nat -> bool) j => indR (b j)) (avail i) in
  let s := sumn (fI M) (fun i => chosen (mJ (fm M)) mask (prob M i avail None safe x) * fw M i) in
  s < 1 /\ s / a <= - ln (1 - s) / a <= consumer_surplus M av None x - consumer_surplus M av (Some mask) x.
Proof.
  intros V G E1 Ha N Hw Sw Hrho K av s.
  set (c := fun i => chosen (mJ (fm M)) mask (prob M i avail None safe x)) in *.
  assert (P : forall i, (i < fI M)%nat -> 0 <= c i < 1 /\ individual_surplus M av None x i - individual_surplus M av (Some mask) x i = - ln (1 - c i) / a).
  { intros i Hi. destruct (value_bound M i a V G E1 (N i Hi) avail mask safe x Ha Hrho) as (A & _ & B & _). split; [exact A|exact (B K)]. }
  assert (Es : 1 - s = sumn (fI M) (fun i => fw M i * (1 - c i))).
  { rewrite (sumn_ext _ (fun i => fw M i * (1 - c i)) (fun i => fw M i - c i * fw M i)) by (intros; ring). rewrite sumn_minus, Sw. reflexivity. }
  destruct (jensen (fI M) (fw M) (fun i => 1 - c i) Hw Sw) as [T0 T1]; [intros i Hi; destruct (P i Hi) as [X _]; lra|]. rewrite <- Es in T0, T1.
  split; [lra|]. split.
  - apply Rmult_le_compat_r; [left; apply Rinv_0_lt_compat, Ha|]. assert (X := ln_below (1 - s) T0). lra.
  - assert (D : consumer_surplus M av None x - consumer_surplus M av (Some mask) x = - sumn (fI M) (fun i => fw M i * ln (1 - c i)) / a).
    { unfold consumer_surplus. rewrite <- sumn_minus. unfold Rdiv. rewrite Ropp_mult_distr_l_reverse, Ropp_mult_distr_r. rewrite <- sumn_scal_r. apply sumn_ext. intros i Hi.
      destruct (P i Hi) as [_ X]. replace (individual_surplus M av None x i * fw M i - individual_surplus M av (Some mask) x i * fw M i) with ((individual_surplus M av None x i - individual_surplus M av (Some mask) x i) * fw M i) by ring.
      rewrite X. unfold Rdiv. ring. }
    rewrite D. apply Rmult_le_compat_r; [left; apply Rinv_0_lt_compat, Ha|]. lra.
Qed.
