(** Lemmas about the demand specification and about market shares, mean utilities and the
    contraction. *)
From Coq Require Import Reals Lra Lia List Bool Arith String.
From Verif Require Import Base DemandModel DemandSpec DemandProofs.
Import ListNotations.
Local Open Scope R_scope.

(* ---------- sums over groups ---------- *)

Lemma sumn_by_group J H grp f :
  (forall j, (j < J)%nat -> (grp j < H)%nat) ->
  sumn J f = sumn H (fun h => sumn J (fun j => if Nat.eqb (grp j) h then f j else 0)).
Proof.
  intros Hg. rewrite sumn_swap. apply sumn_ext. intros j Hj.
  rewrite (sumn_single H (grp j)); [rewrite Nat.eqb_refl; reflexivity|apply Hg; assumption|].
  intros i _ Hi. destruct (Nat.eqb_spec (grp j) i); [congruence|reflexivity].
Qed.

Lemma Rpower_pos x a : 0 < Rpower x a.
Proof. unfold Rpower. apply exp_pos. Qed.

Lemma group_weight_inclusive J grp r inc V h :
  existsb (fun k => inc k && Nat.eqb (grp k) h) (seq 0 J) = true ->
  group_weight J grp r inc V h = Rpower (inclusive J grp r inc V h) (1 - r h).
Proof. intros E. unfold group_weight. rewrite E. reflexivity. Qed.

Lemma within_group_total J grp r inc V h :
  sumn J (fun j => if Nat.eqb (grp j) h then within_group J grp r inc V j else 0)
  = if existsb (fun k => inc k && Nat.eqb (grp k) h) (seq 0 J) then 1 else 0.
Proof.
  set (D := inclusive J grp r inc V h).
  assert (E : sumn J (fun j => if Nat.eqb (grp j) h then within_group J grp r inc V j else 0) = D * / D).
  { unfold D at 1, inclusive. rewrite <- sumn_scal_r. apply sumn_ext. intros j _.
    unfold within_group. destruct (Nat.eqb_spec (grp j) h) as [->|_]; [|rewrite andb_false_r; ring].
    rewrite andb_true_r. fold D. destruct (inc j); [reflexivity|ring]. }
  rewrite E. destruct (existsb _ _) eqn:Ex.
  - apply Rinv_r. apply Rgt_not_eq. apply inclusive_pos; assumption.
  - unfold D. rewrite inclusive_zero by assumption. ring.
Qed.

Lemma nested_total J H grp r inc out V :
  (forall j, (j < J)%nat -> (grp j < H)%nat) ->
  sumn J (nested J H grp r inc out V)
  = sumn H (group_weight J grp r inc V) / (indR out + sumn H (group_weight J grp r inc V)).
Proof.
  intros Hg. rewrite (sumn_by_group J H grp _ Hg). unfold Rdiv. rewrite <- sumn_scal_r.
  apply sumn_ext. intros h Hh.
  transitivity (sumn J (fun j => if Nat.eqb (grp j) h then within_group J grp r inc V j else 0)
                * group_share J H grp r inc out V h).
  { rewrite <- sumn_scal_r. apply sumn_ext. intros j _. unfold nested.
    destruct (Nat.eqb_spec (grp j) h) as [->|]; ring. }
  rewrite within_group_total. unfold group_share, Rdiv.
  destruct (existsb _ _) eqn:E; [ring|].
  assert (W0 : group_weight J grp r inc V h = 0) by (unfold group_weight; rewrite E; reflexivity).
  rewrite W0. ring.
Qed.

Lemma logit_total J inc out V :
  sumn J (logit J inc out V)
  = sumn J (fun k => if inc k then exp (V k) else 0)
    / (indR out + sumn J (fun k => if inc k then exp (V k) else 0)).
Proof.
  unfold Rdiv. rewrite <- sumn_scal_r. apply sumn_ext. intros j _. unfold logit.
  destruct (inc j); [reflexivity|ring].
Qed.

Lemma exp_sum_nonneg J (inc : nat -> bool) V : 0 <= sumn J (fun k => if inc k then exp (V k) else 0).
Proof. apply sumn_nonneg. intros k _. destruct (inc k); [left; apply exp_pos|lra]. Qed.

Lemma logit_pos J inc out V j : (j < J)%nat -> inc j = true -> 0 < logit J inc out V j.
Proof.
  intros Hj E. unfold logit. rewrite E. apply Rdiv_lt_0_compat; [apply exp_pos|].
  assert (0 <= indR out) by apply indR_nonneg.
  assert (0 < sumn J (fun k => if inc k then exp (V k) else 0)).
  { apply sumn_pos; [intros k _; destruct (inc k); [left; apply exp_pos|lra]|].
    exists j; split; [assumption|]. rewrite E. apply exp_pos. }
  lra.
Qed.

Lemma within_pos J grp r inc V j : (j < J)%nat -> inc j = true -> 0 < within_group J grp r inc V j.
Proof.
  intros Hj E. unfold within_group. rewrite E. apply Rdiv_lt_0_compat; [apply exp_pos|].
  apply inclusive_pos. apply existsb_intro with j; [assumption|]. rewrite E, Nat.eqb_refl; reflexivity.
Qed.

Lemma weights_nonneg J H grp r inc V : 0 <= sumn H (group_weight J grp r inc V).
Proof. apply sumn_nonneg. intros; apply group_weight_nonneg. Qed.

Lemma nested_pos J H grp r inc out V j :
  (j < J)%nat -> (grp j < H)%nat -> inc j = true -> 0 < nested J H grp r inc out V j.
Proof.
  intros Hj Hh E. unfold nested. apply Rmult_lt_0_compat; [apply within_pos; assumption|].
  assert (Ex : existsb (fun k => inc k && Nat.eqb (grp k) (grp j)) (seq 0 J) = true).
  { apply existsb_intro with j; [assumption|]. rewrite E, Nat.eqb_refl; reflexivity. }
  assert (Hw : 0 < group_weight J grp r inc V (grp j)).
  { rewrite group_weight_inclusive by assumption. apply Rpower_pos. }
  unfold group_share. apply Rdiv_lt_0_compat; [assumption|].
  assert (0 <= indR out) by apply indR_nonneg.
  assert (group_weight J grp r inc V (grp j) <= sumn H (group_weight J grp r inc V)).
  { apply (sumn_ge_term H (group_weight J grp r inc V)); [intros; apply group_weight_nonneg|assumption]. }
  lra.
Qed.

Lemma ratio_lt_1 x : 0 <= x -> x / (1 + x) < 1.
Proof.
  intros Hx. apply Rmult_lt_reg_r with (1 + x); [lra|].
  unfold Rdiv. rewrite Rmult_assoc, Rinv_l by lra. lra.
Qed.

(* ---------- closed form ---------- *)

Lemma closed_form_plain J s j :
  (forall k, (k < J)%nat -> 0 < s k) -> sumn J s < 1 -> (j < J)%nat ->
  logit J all_goods true (fun k => ln (s k) - ln (1 - sumn J s)) j = s j.
Proof.
  intros Hs Ht Hj. set (s0 := 1 - sumn J s). assert (H0 : 0 < s0) by (unfold s0; lra).
  assert (E : forall k, (k < J)%nat -> exp (ln (s k) - ln s0) = s k * / s0).
  { intros k Hk. unfold Rminus. rewrite exp_plus, exp_Ropp, !exp_ln by auto. reflexivity. }
  unfold logit, all_goods. cbn [indR].
  rewrite (sumn_ext J (fun k => exp (ln (s k) - ln s0)) (fun k => s k * / s0) E).
  rewrite sumn_scal_r, E by assumption.
  replace (1 + sumn J s * / s0) with (/ s0) by (unfold s0 in *; field; lra).
  field. lra.
Qed.

Lemma closed_form_nested J H grp r s j :
  (forall k, (k < J)%nat -> (grp k < H)%nat) ->
  (forall h, (h < H)%nat -> r h < 1) ->
  (forall k, (k < J)%nat -> 0 < s k) -> sumn J s < 1 -> (j < J)%nat ->
  nested J H grp r all_goods true
    (fun k => ln (s k) - ln (1 - sumn J s)
              - r (grp k) * (ln (s k) - ln (sumn J (fun i => if Nat.eqb (grp i) (grp k) then s i else 0)))) j
  = s j.
Proof.
  intros Hg Hr Hs Ht Hj. set (s0 := 1 - sumn J s). assert (H0 : 0 < s0) by (unfold s0; lra).
  set (S := fun h => sumn J (fun i => if Nat.eqb (grp i) h then s i else 0)).
  set (V := fun k => ln (s k) - ln s0 - r (grp k) * (ln (s k) - ln (S (grp k)))).
  change (nested J H grp r all_goods true V j = s j).
  assert (HS : forall k, (k < J)%nat -> 0 < S (grp k)).
  { intros k Hk. unfold S. apply sumn_pos.
    - intros i Hi. destruct (Nat.eqb _ _); [left; auto|lra].
    - exists k; split; [assumption|]. rewrite Nat.eqb_refl; auto. }
  set (K := fun h => exp ((r h * ln (S h) - ln s0) / (1 - r h))).
  assert (E : forall k, (k < J)%nat -> exp (V k / (1 - r (grp k))) = s k * K (grp k)).
  { intros k Hk. assert (Hrk := Hr _ (Hg k Hk)). unfold K, V.
    replace ((ln (s k) - ln s0 - r (grp k) * (ln (s k) - ln (S (grp k)))) / (1 - r (grp k)))
      with (ln (s k) + (r (grp k) * ln (S (grp k)) - ln s0) / (1 - r (grp k))) by (field; lra).
    rewrite exp_plus, exp_ln by auto. reflexivity. }
  assert (EI : forall h, inclusive J grp r all_goods V h = S h * K h).
  { intros h. unfold inclusive, S, all_goods. rewrite <- sumn_scal_r. apply sumn_ext. intros k Hk.
    cbn [andb]. destruct (Nat.eqb_spec (grp k) h) as [<-|]; [|ring]. apply E; assumption. }
  assert (EW : forall h, (h < H)%nat -> group_weight J grp r all_goods V h = S h * / s0).
  { intros h Hh. assert (Hrh := Hr h Hh). unfold group_weight.
    destruct (existsb _ _) eqn:Ex.
    - apply existsb_seq_group in Ex. destruct Ex as [k [Hk Ek]].
      unfold all_goods in Ek; cbn [andb] in Ek. apply Nat.eqb_eq in Ek. subst h.
      rewrite EI. unfold Rpower. assert (HSk := HS k Hk).
      rewrite ln_mult by (try assumption; apply exp_pos). unfold K. rewrite ln_exp.
      replace ((1 - r (grp k)) * (ln (S (grp k)) + (r (grp k) * ln (S (grp k)) - ln s0) / (1 - r (grp k))))
        with (ln (S (grp k)) + - ln s0) by (field; lra).
      rewrite exp_plus, exp_Ropp, !exp_ln by assumption. reflexivity.
    - assert (S h = 0); [|rewrite H1; ring].
      unfold S. transitivity (sumn J (fun _ => 0)); [|apply sumn_zero].
      apply sumn_ext. intros k Hk. destruct (Nat.eqb (grp k) h) eqn:Ek; [|reflexivity].
      assert (existsb (fun k => all_goods k && Nat.eqb (grp k) h) (seq 0 J) = true).
      { apply existsb_intro with k; assumption. }
      congruence. }
  unfold nested, within_group, group_share, all_goods. cbn [indR]. fold all_goods.
  rewrite E, EI, EW by auto.
  rewrite (sumn_ext H _ (fun h => S h * / s0)) by (intros; apply EW; assumption).
  rewrite sumn_scal_r.
  assert (ES : sumn H S = sumn J s).
  { unfold S. symmetry. apply sumn_by_group; assumption. }
  rewrite ES.
  replace (1 + sumn J s * / s0) with (/ s0) by (unfold s0 in *; field; lra).
  assert (HSj := HS j Hj). assert (HK : 0 < K (grp j)) by apply exp_pos.
  field. repeat split; lra.
Qed.

Lemma included_all : included None None None = all_goods.
Proof. reflexivity. Qed.

Lemma full_choice_with : full_choice = choice_with true None None None.
Proof. reflexivity. Qed.

Lemma closed_form_inverts m safe shares mu j :
  valid_market m ->
  (forall k, (k < mJ m)%nat -> 0 < shares k) -> sumn (mJ m) shares < 1 ->
  (forall k, mu k = 0) -> (j < mJ m)%nat ->
  fst (probabilities_linear m full_choice safe (closed_form_delta m shares) mu) j = shares j.
Proof.
  intros V Hs Ht Hmu Hj. rewrite full_choice_with.
  destruct (probabilities_spec m safe true None None None (closed_form_delta m shares) mu V) as [A B].
  rewrite included_all in A, B. assert (He := vm_eps _ V).
  destruct (Nat.eq_dec (mH m) 0) as [HH|HH].
  - destruct (A HH) as [A1 _]. rewrite (A1 j Hj).
    rewrite <- (closed_form_plain (mJ m) shares j) by assumption.
    unfold logit, all_goods.
    assert (E : forall k, utility m (closed_form_delta m shares) mu k
                 = ln (shares k) - ln (1 - sumn (mJ m) shares)).
    { intros k. unfold utility, closed_form_delta. rewrite Hmu, HH; cbn [Nat.eqb].
      destruct (Req_EM_T (eps_scale m) 1) as [->|]; field; lra. }
    rewrite E. f_equal. f_equal. apply sumn_ext; intros; rewrite E; reflexivity.
  - destruct (B HH) as [B1 _]. rewrite (B1 j Hj).
    rewrite <- (closed_form_nested (mJ m) (mH m) (gid m) (grho m) shares j) by
      (try assumption; apply (vm_gid _ V HH) || apply (vm_rho _ V HH)).
    assert (E : utility m (closed_form_delta m shares) mu =
      (fun k => ln (shares k) - ln (1 - sumn (mJ m) shares) -
                rho m k * (ln (shares k) - ln (gsum m shares (gid m k))))).
    { apply FunctionalExtensionality.functional_extensionality. intros k.
      unfold utility, closed_form_delta. rewrite Hmu, (vm_eps_nest _ V HH).
      destruct (Nat.eqb_spec (mH m) 0); [contradiction|].
      destruct (Req_EM_T 1 1); [|lra]. unfold Rdiv. rewrite Rinv_1. ring. }
    rewrite E. reflexivity.
Qed.

(* ---------- monotonicity ---------- *)

(** The part of a nested logit probability that does not depend on the product's own utility. *)
Definition residual_part (J H : nat) grp (r : nat -> R) inc (out : bool) V (h : nat) : R :=
  Rpower (inclusive J grp r inc V h) (- r h) / (indR out + sumn H (group_weight J grp r inc V)).

Lemma nested_factor J H grp r inc out V j :
  (j < J)%nat -> inc j = true ->
  nested J H grp r inc out V j
  = exp (V j / (1 - r (grp j))) * residual_part J H grp r inc out V (grp j).
Proof.
  intros Hj E.
  assert (Ex : existsb (fun k => inc k && Nat.eqb (grp k) (grp j)) (seq 0 J) = true).
  { apply existsb_intro with j; [assumption|]. rewrite E, Nat.eqb_refl; reflexivity. }
  assert (HD := inclusive_pos J grp r inc V (grp j) Ex).
  unfold nested, within_group, group_share, residual_part. rewrite E.
  rewrite (group_weight_inclusive J grp r inc V (grp j)) by assumption.
  set (D := inclusive J grp r inc V (grp j)) in *.
  replace (Rpower D (1 - r (grp j))) with (D * Rpower D (- r (grp j))).
  2: { unfold Rminus. rewrite Rpower_plus, Rpower_1 by assumption. reflexivity. }
  unfold Rdiv. rewrite !Rmult_assoc. f_equal.
  rewrite <- !Rmult_assoc. rewrite Rinv_l by lra. ring.
Qed.

Lemma Rpower_le_neg x y a : 0 < x -> x <= y -> a <= 0 -> Rpower y a <= Rpower x a.
Proof.
  intros Hx Hxy Ha. unfold Rpower.
  assert (Hln : ln x <= ln y).
  { destruct Hxy as [Hlt| ->]; [left; apply ln_increasing; assumption|right; reflexivity]. }
  assert (a * ln y <= a * ln x) by (apply Rmult_le_compat_neg_l; assumption).
  destruct H as [Hlt| ->]; [left; apply exp_increasing; assumption|right; reflexivity].
Qed.

Lemma Rpower_le_pos x y a : 0 < x -> x <= y -> 0 <= a -> Rpower x a <= Rpower y a.
Proof.
  intros Hx Hxy Ha. unfold Rpower.
  assert (Hln : ln x <= ln y).
  { destruct Hxy as [Hlt| ->]; [left; apply ln_increasing; assumption|right; reflexivity]. }
  assert (a * ln x <= a * ln y) by (apply Rmult_le_compat_l; assumption).
  destruct H as [Hlt| ->]; [left; apply exp_increasing; assumption|right; reflexivity].
Qed.

Lemma exp_le x y : x <= y -> exp x <= exp y.
Proof. intros [H| ->]; [left; apply exp_increasing; assumption|right; reflexivity]. Qed.

Lemma Rpower_mult_exp x c a : 0 < x -> Rpower (exp c * x) a = exp (a * c) * Rpower x a.
Proof.
  intros Hx. unfold Rpower. rewrite ln_mult by (try assumption; apply exp_pos).
  rewrite ln_exp, Rmult_plus_distr_l, exp_plus. reflexivity.
Qed.

Section Compare.
  Variables (J H : nat) (grp : nat -> nat) (r : nat -> R).
  Variables (inc inc' : nat -> bool) (V V' : nat -> R) (m : R).
  Hypothesis Hr1 : forall h, (h < H)%nat -> r h < 1.
  Hypothesis Hm : 0 <= m.
  Hypothesis Hinc : forall k, (k < J)%nat -> inc k = true -> inc' k = true.
  Hypothesis HV : forall k, (k < J)%nat -> inc k = true -> V k <= V' k + m.

  Lemma inclusive_compare h : (h < H)%nat ->
    inclusive J grp r inc V h <= exp (m / (1 - r h)) * inclusive J grp r inc' V' h.
  Proof.
    intros Hh. assert (Hrh := Hr1 h Hh). unfold inclusive. rewrite <- sumn_scal.
    apply sumn_le. intros k Hk.
    assert (0 < exp (m / (1 - r h))) by apply exp_pos.
    destruct (Nat.eqb (grp k) h) eqn:Eh; rewrite ?andb_true_r, ?andb_false_r; [|lra].
    destruct (inc k) eqn:Ei.
    - rewrite (Hinc k Hk Ei). rewrite <- exp_plus. apply exp_le.
      replace (m / (1 - r h) + V' k / (1 - r h)) with ((V' k + m) / (1 - r h)) by (field; lra).
      unfold Rdiv. apply Rmult_le_compat_r; [left; apply Rinv_0_lt_compat; lra|]. apply HV; assumption.
    - destruct (inc' k); [|lra]. left. apply Rmult_lt_0_compat; apply exp_pos.
  Qed.

  Lemma weight_compare h : (h < H)%nat ->
    group_weight J grp r inc V h <= exp m * group_weight J grp r inc' V' h.
  Proof.
    intros Hh. assert (Hrh := Hr1 h Hh). unfold group_weight at 1.
    destruct (existsb (fun k => inc k && Nat.eqb (grp k) h) (seq 0 J)) eqn:Ex.
    - assert (Ex' : existsb (fun k => inc' k && Nat.eqb (grp k) h) (seq 0 J) = true).
      { apply existsb_seq_group in Ex. destruct Ex as [k [Hk Ek]].
        apply andb_true_iff in Ek. destruct Ek as [E1 E2].
        apply existsb_intro with k; [assumption|]. rewrite (Hinc k Hk E1), E2; reflexivity. }
      rewrite (group_weight_inclusive J grp r inc' V' h Ex').
      assert (HD := inclusive_pos J grp r inc V h Ex).
      assert (HD' := inclusive_pos J grp r inc' V' h Ex').
      eapply Rle_trans.
      + apply Rpower_le_pos; [assumption|apply inclusive_compare; assumption|lra].
      + rewrite Rpower_mult_exp by assumption.
        replace ((1 - r h) * (m / (1 - r h))) with m by (field; lra). lra.
    - assert (0 <= group_weight J grp r inc' V' h) by apply group_weight_nonneg.
      assert (0 < exp m) by apply exp_pos. nra.
  Qed.

  Lemma weights_compare :
    sumn H (group_weight J grp r inc V) <= exp m * sumn H (group_weight J grp r inc' V').
  Proof. rewrite <- sumn_scal. apply sumn_le. apply weight_compare. Qed.

  Lemma residual_compare h :
    (h < H)%nat -> 0 <= r h ->
    (exists k, (k < J)%nat /\ inc k = true /\ grp k = h) ->
    residual_part J H grp r inc' true V' h * exp (- m / (1 - r h))
      <= residual_part J H grp r inc true V h /\
    (0 < m -> residual_part J H grp r inc' true V' h * exp (- m / (1 - r h))
      < residual_part J H grp r inc true V h).
  Proof.
    intros Hh Hr0 [k [Hk [Ek Egrp]]]. assert (Hrh := Hr1 h Hh).
    assert (Ex : existsb (fun k => inc k && Nat.eqb (grp k) h) (seq 0 J) = true).
    { apply existsb_intro with k; [assumption|]. rewrite Ek, Egrp, Nat.eqb_refl; reflexivity. }
    assert (Ex' : existsb (fun k => inc' k && Nat.eqb (grp k) h) (seq 0 J) = true).
    { apply existsb_intro with k; [assumption|]. rewrite (Hinc k Hk Ek), Egrp, Nat.eqb_refl; reflexivity. }
    assert (HD := inclusive_pos J grp r inc V h Ex).
    assert (HD' := inclusive_pos J grp r inc' V' h Ex').
    unfold residual_part. cbn [indR].
    set (D := inclusive J grp r inc V h) in *. set (D' := inclusive J grp r inc' V' h) in *.
    assert (HW := weights_nonneg J H grp r inc V). assert (HW' := weights_nonneg J H grp r inc' V').
    assert (HWW := weights_compare).
    set (W := sumn H (group_weight J grp r inc V)) in *.
    set (W' := sumn H (group_weight J grp r inc' V')) in *.
    assert (HDD : D <= exp (m / (1 - r h)) * D') by (apply inclusive_compare; assumption).
    assert (HP : Rpower D' (- r h) * exp (- (r h * m / (1 - r h))) <= Rpower D (- r h)).
    { replace (Rpower D' (- r h) * exp (- (r h * m / (1 - r h))))
        with (Rpower (exp (m / (1 - r h)) * D') (- r h)).
      2: { rewrite Rpower_mult_exp by assumption.
           replace (- r h * (m / (1 - r h))) with (- (r h * m / (1 - r h))) by (field; lra). ring. }
      apply Rpower_le_neg; [assumption|assumption|lra]. }
    assert (Hem : 1 <= exp m) by (rewrite <- exp_0; apply exp_le; assumption).
    assert (HB : 1 + W <= exp m * (1 + W')) by lra.
    assert (Hexp : exp (- m / (1 - r h)) = exp (- (r h * m / (1 - r h))) * exp (- m)).
    { rewrite <- exp_plus. f_equal. field; lra. }
    assert (Hinv : / (1 + W') * exp (- m) <= / (1 + W)).
    { rewrite exp_Ropp, <- Rinv_mult. apply Rinv_le_contravar; [lra|]. rewrite Rmult_comm; lra. }
    assert (0 < exp (- (r h * m / (1 - r h)))) by apply exp_pos.
    assert (0 < exp (- m)) by apply exp_pos.
    assert (0 < / (1 + W')) by (apply Rinv_0_lt_compat; lra).
    assert (0 < / (1 + W)) by (apply Rinv_0_lt_compat; lra).
    assert (HPd := Rpower_pos D (- r h)). assert (HPd' := Rpower_pos D' (- r h)).
    rewrite Hexp.
    set (c := exp (- (r h * m / (1 - r h)))) in *. unfold Rdiv.
    replace (Rpower D' (- r h) * / (1 + W') * (c * exp (- m)))
      with ((Rpower D' (- r h) * c) * (/ (1 + W') * exp (- m))) by ring.
    set (P' := Rpower D' (- r h) * c) in *.
    assert (0 < P') by (apply Rmult_lt_0_compat; assumption).
    split.
    - apply Rmult_le_compat; try lra. left. apply Rmult_lt_0_compat; assumption.
    - intros Hmp.
      assert (Hstrict : / (1 + W') * exp (- m) < / (1 + W)).
      { rewrite exp_Ropp, <- Rinv_mult. apply Rinv_lt_contravar.
        - apply Rmult_lt_0_compat; [lra|]. apply Rmult_lt_0_compat; [lra|apply exp_pos].
        - assert (1 < exp m) by (rewrite <- exp_0; apply exp_increasing; assumption).
          rewrite Rmult_comm. rewrite Rmult_plus_distr_l. lra. }
      apply Rle_lt_trans with (Rpower D (- r h) * (/ (1 + W') * exp (- m))).
      + apply Rmult_le_compat_r; [left; apply Rmult_lt_0_compat; assumption|assumption].
      + apply Rmult_lt_compat_l; assumption.
  Qed.
End Compare.

(** Plain logit is nested logit with a single group and a zero nesting parameter. *)
Lemma logit_as_nested J inc out V j :
  (j < J)%nat ->
  logit J inc out V j = nested J 1 (fun _ => O) (fun _ => 0) inc out V j.
Proof.
  intros Hj. destruct (inc j) eqn:E.
  - rewrite nested_factor by assumption. unfold residual_part, logit. rewrite E.
    assert (Ex : existsb (fun k => inc k && Nat.eqb 0 0) (seq 0 J) = true).
    { apply existsb_intro with j; [assumption|]. rewrite E; reflexivity. }
    assert (HD := inclusive_pos J (fun _ => O) (fun _ => 0) inc V O Ex).
    assert (EI : inclusive J (fun _ => O) (fun _ => 0) inc V O = sumn J (fun k => if inc k then exp (V k) else 0)).
    { unfold inclusive. apply sumn_ext. intros k _. cbn [Nat.eqb]. rewrite andb_true_r.
      destruct (inc k); [|reflexivity]. f_equal. field. }
    cbn [sumn]. rewrite (group_weight_inclusive J (fun _ => O) (fun _ => 0) inc V O Ex).
    cbv beta. rewrite !Rminus_0_r, Rpower_1 by assumption. rewrite Ropp_0, Rpower_O by assumption.
    rewrite EI, Rplus_0_l. replace (V j / 1) with (V j) by field. unfold Rdiv. ring.
  - unfold logit, nested, within_group. rewrite E. ring.
Qed.

(* ---------- market shares ---------- *)

(** One agent's probabilities with the full choice set as nested logit (with one trivial group when
    there is no nesting). *)
Definition gidx (m : market) (j : nat) : nat := if Nat.eqb (mH m) 0 then O else gid m j.
Definition grpn (m : market) : nat := if Nat.eqb (mH m) 0 then 1%nat else mH m.
Definition grhox (m : market) (h : nat) : R := if Nat.eqb (mH m) 0 then 0 else grho m h.

Lemma gidx_lt m j : valid_market m -> (j < mJ m)%nat -> (gidx m j < grpn m)%nat.
Proof.
  intros V Hj. unfold gidx, grpn. destruct (Nat.eqb_spec (mH m) 0) as [HH|HH]; [lia|].
  apply (vm_gid _ V HH); assumption.
Qed.

Lemma grhox_lt m h : valid_market m -> (h < grpn m)%nat -> grhox m h < 1.
Proof.
  intros V Hh. unfold grhox, grpn in *. destruct (Nat.eqb_spec (mH m) 0) as [HH|HH]; [lra|].
  apply (vm_rho _ V HH); assumption.
Qed.

Lemma probabilities_nested m safe out avail el ids delta mu j :
  valid_market m -> (j < mJ m)%nat ->
  fst (probabilities_linear m (choice_with out avail el ids) safe delta mu) j
  = nested (mJ m) (grpn m) (gidx m) (grhox m) (included avail el ids) out (utility m delta mu) j.
Proof.
  intros V Hj. destruct (probabilities_spec m safe out avail el ids delta mu V) as [A B].
  unfold grpn, grhox.
  assert (Eg : gidx m = fun k => if Nat.eqb (mH m) 0 then O else gid m k) by reflexivity.
  rewrite Eg.
  destruct (Nat.eqb_spec (mH m) 0) as [HH|HH].
  - destruct (A HH) as [A1 _]. rewrite (A1 j Hj). apply logit_as_nested; assumption.
  - destruct (B HH) as [B1 _]. apply B1; assumption.
Qed.

Definition valid_agents (a : agents) : Prop :=
  (forall i, (i < aI a)%nat -> 0 <= aw a i) /\ exists i, (i < aI a)%nat /\ 0 < aw a i.

Lemma market_shares_pos m a safe delta j :
  valid_market m -> valid_agents a -> (j < mJ m)%nat -> 0 < market_shares m a safe delta j.
Proof.
  intros V [Hw [i0 [Hi0 Hw0]]] Hj. unfold market_shares.
  assert (HP : forall i, 0 < fst (probabilities_linear m full_choice safe delta (amu a i)) j).
  { intros i. rewrite full_choice_with, probabilities_nested by assumption.
    apply nested_pos; [assumption|apply gidx_lt; assumption|reflexivity]. }
  apply sumn_pos.
  - intros i Hi. apply Rmult_le_pos; [left; apply HP|auto].
  - exists i0; split; [assumption|]. apply Rmult_lt_0_compat; [apply HP|assumption].
Qed.

Lemma clip_id bounds s target :
  match fst bounds with Some lb => lb < target | None => True end ->
  match snd bounds with Some ub => target < ub | None => True end ->
  (fst (clip_share bounds s) = target <-> s = target).
Proof.
  destruct bounds as [[lb|] [ub|]]; cbn [fst snd clip_share]; intros Hl Hu.
  - destruct (Rlt_dec s lb) as [H1|H1].
    + destruct (Rlt_dec ub lb) as [H2|H2]; cbn [fst]; split; intros; lra.
    + destruct (Rlt_dec ub s) as [H2|H2]; cbn [fst]; split; intros; lra.
  - destruct (Rlt_dec s lb) as [H1|H1]; cbn [fst]; split; intros; lra.
  - destruct (Rlt_dec ub s) as [H1|H1]; cbn [fst]; split; intros; lra.
  - cbn [fst]; split; intros; assumption.
Qed.

Lemma clip_pos bounds s :
  match fst bounds with Some lb => 0 < lb | None => True end ->
  match snd bounds with Some ub => 0 < ub | None => True end ->
  0 < s -> 0 < fst (clip_share bounds s).
Proof.
  destruct bounds as [[lb|] [ub|]]; cbn [fst snd clip_share]; intros Hl Hu Hs.
  - destruct (Rlt_dec s lb); [destruct (Rlt_dec ub lb)|destruct (Rlt_dec ub s)]; cbn [fst]; lra.
  - destruct (Rlt_dec s lb); cbn [fst]; lra.
  - destruct (Rlt_dec ub s); cbn [fst]; lra.
  - cbn [fst]; lra.
Qed.

(** Fixed points of the contraction. *)
Lemma fixed_point_iff m a safe bounds shares x :
  valid_market m -> valid_agents a ->
  (forall j, (j < mJ m)%nat -> 0 < shares j) ->
  match fst bounds with Some lb => 0 < lb | None => True end ->
  match snd bounds with Some ub => 0 < ub | None => True end ->
  forall j, (j < mJ m)%nat ->
  (contraction m a safe bounds shares x j = x j <->
   fst (clip_share bounds (market_shares m a safe x j)) = shares j).
Proof.
  intros V A Hs Hl Hu j Hj.
  assert (Hp := market_shares_pos m a safe x j V A Hj).
  assert (Hc := clip_pos bounds _ Hl Hu Hp).
  assert (Hsj := Hs j Hj).
  unfold contraction. set (s := fst (clip_share bounds (market_shares m a safe x j))) in *.
  destruct (Nat.eqb_spec (mH m) 0) as [HH|HH].
  - split; intros E.
    + apply ln_inv; [assumption|assumption|lra].
    + rewrite E; lra.
  - assert (Hr : rho m j < 1) by (apply (vm_rho _ V HH), (vm_gid _ V HH); assumption).
    split; intros E.
    + apply ln_inv; [assumption|assumption|].
      assert (E2 : (ln (shares j) - ln s) * (1 - rho m j) = 0) by lra.
      apply Rmult_integral in E2. destruct E2; lra.
    + rewrite E; lra.
Qed.

Lemma fixed_point_matches m a safe bounds shares x :
  valid_market m -> valid_agents a ->
  (forall j, (j < mJ m)%nat -> 0 < shares j) ->
  match fst bounds with
  | Some lb => 0 < lb /\ forall j, (j < mJ m)%nat -> lb < shares j | None => True end ->
  match snd bounds with
  | Some ub => 0 < ub /\ forall j, (j < mJ m)%nat -> shares j < ub | None => True end ->
  ((forall j, (j < mJ m)%nat -> contraction m a safe bounds shares x j = x j) <->
   (forall j, (j < mJ m)%nat -> market_shares m a safe x j = shares j)).
Proof.
  intros V A Hs Hl Hu.
  assert (H1 : match fst bounds with Some lb => 0 < lb | None => True end)
    by (destruct (fst bounds); [apply Hl|exact I]).
  assert (H2 : match snd bounds with Some ub => 0 < ub | None => True end)
    by (destruct (snd bounds); [apply Hu|exact I]).
  assert (F := fixed_point_iff m a safe bounds shares x V A Hs H1 H2).
  split; intros E j Hj.
  - apply (clip_id bounds).
    + destruct (fst bounds); [apply Hl; assumption|exact I].
    + destruct (snd bounds); [apply Hu; assumption|exact I].
    + apply F; auto.
  - apply F; [assumption|]. apply (clip_id bounds).
    + destruct (fst bounds); [apply Hl; assumption|exact I].
    + destruct (snd bounds); [apply Hu; assumption|exact I].
    + auto.
Qed.

(** The comparison on which uniqueness and nonexpansiveness rest: if x <= y + d everywhere,
    then share j at x is at least share j at y times exp(((x_j - y_j) - d)/(eps (1 - rho_j))). *)
Lemma market_shares_compare m a safe x y d j :
  valid_market m -> valid_agents a ->
  (mH m <> O -> forall h, (h < mH m)%nat -> 0 <= grho m h) ->
  0 <= d -> (forall k, (k < mJ m)%nat -> x k <= y k + d) -> (j < mJ m)%nat ->
  let c := exp ((x j - y j - d) / (eps_scale m * (1 - grhox m (gidx m j)))) in
  market_shares m a safe y j * c <= market_shares m a safe x j /\
  (0 < d -> market_shares m a safe y j * c < market_shares m a safe x j).
Proof.
  intros V A Hr0 Hd Hxy Hj c.
  assert (He := vm_eps _ V).
  assert (Hgj := gidx_lt m j V Hj).
  assert (Hr1 := grhox_lt m (gidx m j) V Hgj).
  assert (Hrj : 0 <= grhox m (gidx m j)).
  { unfold grhox, gidx. destruct (Nat.eqb_spec (mH m) 0) as [HH|HH]; [lra|].
    apply Hr0; [assumption|]. apply (vm_gid _ V HH); assumption. }
  set (de := d / eps_scale m).
  assert (Hde : 0 <= de) by (unfold de, Rdiv; apply Rmult_le_pos; [assumption|left; apply Rinv_0_lt_compat; assumption]).
  assert (HP : forall i,
    fst (probabilities_linear m full_choice safe y (amu a i)) j * c
      <= fst (probabilities_linear m full_choice safe x (amu a i)) j /\
    (0 < d -> fst (probabilities_linear m full_choice safe y (amu a i)) j * c
      < fst (probabilities_linear m full_choice safe x (amu a i)) j)).
  { intros i. rewrite full_choice_with, !probabilities_nested by assumption.
    rewrite included_all.
    rewrite !nested_factor by (try assumption; reflexivity).
    destruct (residual_compare (mJ m) (grpn m) (gidx m) (grhox m) all_goods all_goods
                (utility m x (amu a i)) (utility m y (amu a i)) de) with (h := gidx m j) as [R1 R2].
    - intros h Hh; apply grhox_lt; assumption.
    - assumption.
    - reflexivity.
    - intros k Hk _. unfold utility, de.
      replace ((y k + amu a i k) / eps_scale m + d / eps_scale m)
        with ((y k + amu a i k + d) / eps_scale m) by (field; lra).
      unfold Rdiv. apply Rmult_le_compat_r; [left; apply Rinv_0_lt_compat; assumption|].
      assert (Hx := Hxy k Hk). lra.
    - assumption.
    - assumption.
    - exists j. split; [assumption|]. split; reflexivity.
    - set (g := gidx m j) in *. set (rj := grhox m g) in *.
      set (Ry := residual_part _ _ _ _ _ _ (utility m y (amu a i)) g) in *.
      set (Rx := residual_part _ _ _ _ _ _ (utility m x (amu a i)) g) in *.
      assert (Ec : exp (utility m y (amu a i) j / (1 - rj)) * Ry * c
                   = exp (utility m x (amu a i) j / (1 - rj)) * (Ry * exp (- de / (1 - rj)))).
      { replace (exp (utility m y (amu a i) j / (1 - rj)) * Ry * c)
          with (Ry * (exp (utility m y (amu a i) j / (1 - rj)) * c)) by ring.
        replace (exp (utility m x (amu a i) j / (1 - rj)) * (Ry * exp (- de / (1 - rj))))
          with (Ry * (exp (utility m x (amu a i) j / (1 - rj)) * exp (- de / (1 - rj)))) by ring.
        f_equal. unfold c. rewrite <- !exp_plus. f_equal. unfold utility, de. field. lra. }
      rewrite Ec. assert (Hep := exp_pos (utility m x (amu a i) j / (1 - rj))).
      split.
      + apply Rmult_le_compat_l; [lra|assumption].
      + intros Hdp. apply Rmult_lt_compat_l; [lra|]. apply R2.
        unfold de, Rdiv. apply Rmult_lt_0_compat; [assumption|apply Rinv_0_lt_compat; assumption]. }
  destruct A as [Hw [i0 [Hi0 Hw0]]].
  unfold market_shares. rewrite <- sumn_scal_r. split.
  - apply sumn_le. intros i Hi. destruct (HP i) as [P1 _].
    replace (fst (probabilities_linear m full_choice safe y (amu a i)) j * aw a i * c)
      with ((fst (probabilities_linear m full_choice safe y (amu a i)) j * c) * aw a i) by ring.
    apply Rmult_le_compat_r; auto.
  - intros Hdp. apply sumn_lt.
    + intros i Hi. destruct (HP i) as [P1 _].
      replace (fst (probabilities_linear m full_choice safe y (amu a i)) j * aw a i * c)
        with ((fst (probabilities_linear m full_choice safe y (amu a i)) j * c) * aw a i) by ring.
      apply Rmult_le_compat_r; auto.
    + exists i0. split; [assumption|]. destruct (HP i0) as [_ P2].
      replace (fst (probabilities_linear m full_choice safe y (amu a i0)) j * aw a i0 * c)
        with ((fst (probabilities_linear m full_choice safe y (amu a i0)) j * c) * aw a i0) by ring.
      apply Rmult_lt_compat_r; auto.
Qed.

Lemma shares_injective_le m a safe x y :
  valid_market m -> valid_agents a ->
  (mH m <> O -> forall h, (h < mH m)%nat -> 0 <= grho m h) ->
  (forall j, (j < mJ m)%nat -> market_shares m a safe x j = market_shares m a safe y j) ->
  forall j, (j < mJ m)%nat -> x j <= y j.
Proof.
  intros V A Hr0 E j Hj.
  set (d := maxn (pred (mJ m)) (fun k => x k - y k)).
  assert (HJ := vm_J _ V).
  assert (Hge : forall k, (k < mJ m)%nat -> x k - y k <= d).
  { intros k Hk. apply (maxn_ge (pred (mJ m)) (fun k => x k - y k)). lia. }
  destruct (Rle_lt_dec d 0) as [Hd|Hd].
  - assert (Hk := Hge j Hj). lra.
  - exfalso. destruct (maxn_attained (pred (mJ m)) (fun k => x k - y k)) as [k [Hk Ek]].
    fold d in Ek.
    assert (Hk' : (k < mJ m)%nat) by lia.
    destruct (market_shares_compare m a safe x y d k V A Hr0) as [_ S].
    + lra.
    + intros i Hi. assert (Hi' := Hge i Hi). lra.
    + assumption.
    + specialize (S Hd). rewrite (E k Hk') in S.
      replace ((x k - y k - d) / (eps_scale m * (1 - grhox m (gidx m k)))) with 0 in S.
      * rewrite exp_0 in S. lra.
      * replace (x k - y k - d) with 0 by lra. unfold Rdiv; ring.
Qed.

Lemma shares_injective m a safe x y :
  valid_market m -> valid_agents a ->
  (mH m <> O -> forall h, (h < mH m)%nat -> 0 <= grho m h) ->
  (forall j, (j < mJ m)%nat -> market_shares m a safe x j = market_shares m a safe y j) ->
  forall j, (j < mJ m)%nat -> x j = y j.
Proof.
  intros V A Hr0 E j Hj. apply Rle_antisym.
  - apply (shares_injective_le m a safe); assumption.
  - apply (shares_injective_le m a safe y x); try assumption.
    intros k Hk; symmetry; auto.
Qed.

Lemma ln_le' x y : 0 < x -> x <= y -> ln x <= ln y.
Proof. intros Hx [H| ->]; [left; apply ln_increasing; assumption|right; reflexivity]. Qed.

Lemma contraction_nonexpansive_le m a safe shares x y d :
  valid_market m -> valid_agents a ->
  (mH m <> O -> forall h, (h < mH m)%nat -> 0 <= grho m h) ->
  1 <= eps_scale m -> 0 <= d ->
  (forall k, (k < mJ m)%nat -> x k <= y k + d) ->
  forall j, (j < mJ m)%nat ->
  contraction m a safe (None, None) shares x j <= contraction m a safe (None, None) shares y j + d.
Proof.
  intros V A Hr0 He1 Hd Hxy j Hj.
  destruct (market_shares_compare m a safe x y d j V A Hr0 Hd Hxy Hj) as [C _].
  assert (Hx := market_shares_pos m a safe x j V A Hj).
  assert (Hy := market_shares_pos m a safe y j V A Hj).
  assert (Hd' := Hxy j Hj).
  unfold contraction. cbn [clip_share fst].
  set (sx := market_shares m a safe x j) in *. set (sy := market_shares m a safe y j) in *.
  assert (L : ln sy + (x j - y j - d) / (eps_scale m * (1 - grhox m (gidx m j))) <= ln sx).
  { replace (ln sy + (x j - y j - d) / (eps_scale m * (1 - grhox m (gidx m j))))
      with (ln (sy * exp ((x j - y j - d) / (eps_scale m * (1 - grhox m (gidx m j))))))
      by (rewrite ln_mult by (try assumption; apply exp_pos); rewrite ln_exp; reflexivity).
    apply ln_le'; [apply Rmult_lt_0_compat; [assumption|apply exp_pos]|assumption]. }
  unfold grhox, gidx in L.
  destruct (Nat.eqb_spec (mH m) 0) as [HH|HH].
  - rewrite Rminus_0_r, Rmult_1_r in L.
    assert (Hle : x j - y j - d <= (x j - y j - d) / eps_scale m).
    { set (z := x j - y j - d) in *. assert (Hz : z <= 0) by (unfold z; lra).
      assert (Hi : / eps_scale m <= 1).
      { rewrite <- Rinv_1. apply Rinv_le_contravar; lra. }
      unfold Rdiv. nra. }
    lra.
  - assert (Hr1 : grho m (gid m j) < 1) by (apply (vm_rho _ V HH), (vm_gid _ V HH); assumption).
    rewrite (vm_eps_nest _ V HH), Rmult_1_l in L. unfold rho.
    assert (L2 : (ln sy - ln sx) * (1 - grho m (gid m j)) <= - (x j - y j - d)).
    { replace (- (x j - y j - d))
        with (- ((x j - y j - d) / (1 - grho m (gid m j))) * (1 - grho m (gid m j))) by (field; lra).
      apply Rmult_le_compat_r; lra. }
    lra.
Qed.

Lemma contraction_nonexpansive m a safe shares x y d :
  valid_market m -> valid_agents a ->
  (mH m <> O -> forall h, (h < mH m)%nat -> 0 <= grho m h) ->
  1 <= eps_scale m ->
  (forall k, (k < mJ m)%nat -> Rabs (x k - y k) <= d) ->
  forall j, (j < mJ m)%nat ->
  Rabs (contraction m a safe (None, None) shares x j - contraction m a safe (None, None) shares y j) <= d.
Proof.
  intros V A Hr0 He1 Hd j Hj.
  assert (H0 : 0 <= d).
  { eapply Rle_trans; [apply Rabs_pos|apply (Hd j Hj)]. }
  assert (U := contraction_nonexpansive_le m a safe shares x y d V A Hr0 He1 H0).
  assert (L := contraction_nonexpansive_le m a safe shares y x d V A Hr0 He1 H0).
  assert (Hk : forall k, (k < mJ m)%nat -> - d <= x k - y k <= d).
  { intros k Hk. specialize (Hd k Hk). split; [|eapply Rle_trans; [apply Rle_abs|exact Hd]].
    assert (- (x k - y k) <= d); [|lra].
    eapply Rle_trans; [apply Rle_abs|]. rewrite Rabs_Ropp; assumption. }
  apply Rabs_le. split.
  - assert (contraction m a safe (None, None) shares y j <= contraction m a safe (None, None) shares x j + d).
    { apply L; [|assumption]. intros k Hk'. specialize (Hk k Hk'). lra. }
    lra.
  - assert (contraction m a safe (None, None) shares x j <= contraction m a safe (None, None) shares y j + d).
    { apply U; [|assumption]. intros k Hk'. specialize (Hk k Hk'). lra. }
    lra.
Qed.

Lemma contraction_monotone m a safe shares x y :
  valid_market m -> valid_agents a ->
  (mH m <> O -> forall h, (h < mH m)%nat -> 0 <= grho m h) ->
  1 <= eps_scale m ->
  (forall k, (k < mJ m)%nat -> x k <= y k) ->
  forall j, (j < mJ m)%nat ->
  contraction m a safe (None, None) shares x j <= contraction m a safe (None, None) shares y j.
Proof.
  intros V A Hr0 He1 Hxy j Hj.
  rewrite <- (Rplus_0_r (contraction m a safe (None, None) shares y j)).
  apply contraction_nonexpansive_le; try assumption; try lra.
  intros k Hk. specialize (Hxy k Hk). lra.
Qed.
