(** Proofs about what products are worth if some of the products of nests are eliminated. *)
From Coq Require Import Reals Lra Lia List Bool Arith FunctionalExtensionality.
From Verif Require Import Base DemandModel DemandSpec DemandProofs DemandShares DemandElim SupplyModel SupplySpec SupplyProofs WelfareModel WelfareSpec WelfareProofs ValueSpec ValueProofs ValueNestSpec.
Local Open Scope R_scope.

Section Groups.
Variables (J H : nat) (grp : nat -> nat) (r : nat -> R) (inc mask : nat -> bool) (V : nat -> R).
Hypothesis Hg : forall j, (j < J)%nat -> (grp j < H)%nat.
Let left (j : nat) : bool := inc j && negb (mask j).
Notation W := (group_weight J grp r inc V).
Notation W' := (group_weight J grp r left V).
Notation A := (inclusive J grp r inc V).
Notation B := (inclusive J grp r left V).
Notation p := (nested J H grp r inc true V).
Notation T := (1 + sumn H W).

Lemma T_pos : 0 < T.
Proof. assert (X := weights_nonneg J H grp r inc V). lra. Qed.
Lemma nest_total h : T * in_nest J grp h (fun _ => true) p = W h.
Proof.
  assert (P := T_pos). unfold in_nest. rewrite <- sumn_scal.
  transitivity (sumn J (fun j => (if Nat.eqb (grp j) h then within_group J grp r inc V j else 0) * W h)).
  - apply sumn_ext. intros j _. destruct (Nat.eqb_spec (grp j) h) as [ <- |]; [|ring]. unfold nested, group_share. cbn [indR]. field. lra.
  - rewrite sumn_scal_r, within_group_total. unfold group_weight. destruct (existsb _ _); ring.
Qed.
Lemma nest_part h : T * in_nest J grp h mask p = part J grp r inc mask V h.
Proof.
  assert (P := T_pos). unfold in_nest, part. rewrite <- sumn_scal. apply sumn_ext. intros j _. destruct (Nat.eqb_spec (grp j) h) as [ <- |]; [|ring]. destruct (mask j); [|ring].
  unfold nested, group_share. cbn [indR]. field. lra.
Qed.
Lemma nest_left h : (h < H)%nat -> T * left_of_nest (in_nest J grp h (fun _ => true) p) (in_nest J grp h mask p) (r h) = W' h.
Proof.
  intro Hh. assert (P := T_pos). assert (ET := nest_total h). assert (EP := nest_part h).
  assert (Es : in_nest J grp h (fun _ => true) p = W h / T) by (rewrite <- ET; field; lra). assert (Ec : in_nest J grp h mask p = part J grp r inc mask V h / T) by (rewrite <- EP; field; lra).
  unfold left_of_nest. rewrite Es, Ec.
  destruct (existsb (fun k => inc k && Nat.eqb (grp k) h) (seq 0 J)) eqn:E.
  2: { assert (Wz : W h = 0) by (unfold group_weight; rewrite E; reflexivity). assert (Wz' : W' h = 0) by (unfold group_weight; unfold left; rewrite (left_implies J grp inc mask h E); reflexivity).
       assert (Pz : part J grp r inc mask V h = 0). { unfold part. rewrite Wz. rewrite (sumn_ext J _ (fun _ => 0)); [apply sumn_zero|]. intros j _. destruct (Nat.eqb (grp j) h), (mask j); ring. }
       rewrite Wz, Wz', Pz. destruct (Rlt_dec _ _) as [L|_]; [exfalso; lra|ring]. }
  assert (PA := inclusive_pos J grp r inc V h E). assert (RB := B_range J grp r inc mask V h). fold left in RB.
  assert (WE : W h = Rpower (A h) (1 - r h)) by (apply group_weight_inclusive, E). assert (WP : 0 < W h) by (rewrite WE; apply exp_pos).
  rewrite (part_is J grp r inc mask V h PA). fold left.
  assert (D : W h / T - (A h - B h) / A h * W h / T = W h / T * (B h / A h)) by (field; split; lra).
  assert (WT : 0 < W h / T) by (apply Rdiv_lt_0_compat; assumption).
  destruct (existsb (fun k => left k && Nat.eqb (grp k) h) (seq 0 J)) eqn:E2.
  2: { assert (Bz := inclusive_zero J grp r left V h E2). assert (Wz' : W' h = 0) by (unfold group_weight; rewrite E2; reflexivity). rewrite Wz'. rewrite Bz in *. destruct (Rlt_dec _ _) as [L|_]; [exfalso|ring].
       assert (Z : W h / T * (0 / A h) = 0) by (unfold Rdiv; ring). lra. }
  assert (PB := inclusive_pos J grp r left V h E2). assert (WE2 : W' h = Rpower (B h) (1 - r h)) by (apply group_weight_inclusive, E2).
  assert (Q : 0 < B h / A h) by (apply Rdiv_lt_0_compat; assumption). assert (Q2 : 0 < W h / T * (B h / A h)) by (apply Rmult_lt_0_compat; assumption).
  destruct (Rlt_dec _ _) as [_|L]; [|exfalso; lra]. rewrite D. replace (W h / T * (B h / A h) / (W h / T)) with (B h / A h) by (field; repeat split; lra).
  rewrite WE2. replace (T * (W h / T * Rpower (B h / A h) (1 - r h))) with (W h * Rpower (B h / A h) (1 - r h)) by (field; lra).
  rewrite WE. rewrite Rpower_mult_distr by assumption. f_equal. field. lra.
Qed.
Lemma total_left : T * (1 - sumn J p + sumn H (fun h => left_of_nest (in_nest J grp h (fun _ => true) p) (in_nest J grp h mask p) (r h))) = 1 + sumn H W'.
Proof.
  rewrite Rmult_plus_distr_l. f_equal.
  - assert (P := T_pos). rewrite nested_total by exact Hg. cbn [indR]. field. lra.
  - rewrite <- sumn_scal. apply sumn_ext. intros h Hh. apply nest_left, Hh.
Qed.
End Groups.

Lemma value_nests M i a avail mask safe x :
  valid_market (fm M) -> (forall y, good_columns M y) -> eps_scale (fm M) = 1 -> no_income_effects (mJ (fm M)) (price_utility M i) a -> mH (fm M) <> O ->
  let q := prob M i avail None safe x in let J := mJ (fm M) in
  let rest := 1 - sumn J q + sumn (mH (fm M)) (fun h => left_of_nest (in_nest J (gid (fm M)) h (fun _ => true) q) (in_nest J (gid (fm M)) h mask q) (grho (fm M) h)) in
  let av := fun i => option_map (fun (b : nat -> bool) j => indR (b j)) (avail i) in
  0 < rest /\ individual_surplus M av None x i - individual_surplus M av (Some mask) x i = - ln rest / a.
Proof.
  intros V G E1 N H0 q J rest av. set (m := fm M) in *.
  assert (Eb := proj2 (Nat.eqb_neq _ _) H0).
  assert (Hg : forall j, (j < J)%nat -> (gidx m j < grpn m)%nat) by (intros j Hj; apply gidx_lt; assumption).
  assert (g1 : grpn m = mH m) by (unfold grpn; rewrite Eb; reflexivity). assert (g2 : gidx m = gid m) by (apply functional_extensionality; intro j; unfold gidx; rewrite Eb; reflexivity).
  assert (g3 : grhox m = grho m) by (apply functional_extensionality; intro j; unfold grhox; rewrite Eb; reflexivity).
  set (inc := included (avail i) None None). set (U := price_utility M i x).
  assert (Eq : forall j, (j < J)%nat -> q j = nested J (mH m) (gid m) (grho m) inc true U j).
  { intros j Hj. unfold q. rewrite (prob_nested M i V E1) by exact Hj. fold m J inc U. rewrite g1, g2, g3. reflexivity. }
  assert (X := total_left J (mH m) (gid m) (grho m) inc mask U). rewrite g1, g2 in Hg. specialize (X Hg).
  assert (I2 : (fun j => inc j && negb (mask j)) = included (avail i) None (Some mask)) by (apply functional_extensionality; intro j; symmetry; apply eliminated_included).
  rewrite I2 in X. assert (Sw : forall inc, sumn (mH m) (group_weight J (gid m) (grho m) inc U) = surplus_weights m inc U) by (intro; unfold surplus_weights; rewrite g1, g2, g3; reflexivity).
  rewrite !Sw in X.
  assert (Er : rest = 1 - sumn J (nested J (mH m) (gid m) (grho m) inc true U) + sumn (mH m) (fun h => left_of_nest (in_nest J (gid m) h (fun _ => true) (nested J (mH m) (gid m) (grho m) inc true U)) (in_nest J (gid m) h mask (nested J (mH m) (gid m) (grho m) inc true U)) (grho m h))).
  { unfold rest. rewrite (sumn_ext J q _ Eq). f_equal. apply sumn_ext. intros h _. unfold in_nest. f_equal; apply sumn_ext; intros j Hj; rewrite (Eq j Hj); reflexivity. }
  rewrite <- Er in X.
  assert (P := surplus_weights_nonneg m inc U). assert (P' := surplus_weights_nonneg m (included (avail i) None (Some mask)) U).
  assert (R0 : 0 < rest). { apply Rmult_lt_reg_l with (1 + surplus_weights m inc U); [lra|]. rewrite X. lra. }
  split; [exact R0|]. unfold av. rewrite !(surplus_is M i a V G E1 N). fold m inc U. rewrite <- X. rewrite ln_mult by lra. unfold Rdiv. ring.
Qed.
