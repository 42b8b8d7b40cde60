(** Lemmas about choice sets (elimination), fixed point types, and limits of the contraction. *)
From Coq Require Import Reals Lra Lia List Bool Arith String FunctionalExtensionality.
From Verif Require Import Base DemandModel DemandSpec DemandProofs DemandShares.
Import ListNotations.
Local Open Scope R_scope.

(* ---------- proper probabilities ---------- *)

Lemma utility_def m delta mu j : utility m delta mu j = (delta j + mu j) / eps_scale m.
Proof. reflexivity. Qed.

Lemma nested_total_lt_1 J H grp r inc V :
  (forall j, (j < J)%nat -> (grp j < H)%nat) ->
  sumn J (nested J H grp r inc true V) < 1.
Proof.
  intros Hg. rewrite nested_total by assumption. cbn [indR]. apply ratio_lt_1, weights_nonneg.
Qed.

Lemma nested_total_no_outside J H grp r inc V :
  (forall j, (j < J)%nat -> (grp j < H)%nat) ->
  (exists k, (k < J)%nat /\ inc k = true) ->
  sumn J (nested J H grp r inc false V) = 1.
Proof.
  intros Hg [k [Hk Ek]]. rewrite nested_total by assumption. cbn [indR]. rewrite Rplus_0_l.
  assert (Ex : existsb (fun i => inc i && Nat.eqb (grp i) (grp k)) (seq 0 J) = true).
  { apply existsb_intro with k; [assumption|]. rewrite Ek, Nat.eqb_refl; reflexivity. }
  assert (Hw : 0 < group_weight J grp r inc V (grp k)).
  { rewrite group_weight_inclusive by assumption. apply Rpower_pos. }
  assert (group_weight J grp r inc V (grp k) <= sumn H (group_weight J grp r inc V)).
  { apply (sumn_ge_term H (group_weight J grp r inc V)); [intros; apply group_weight_nonneg|auto]. }
  unfold Rdiv. apply Rinv_r. lra.
Qed.

Lemma probabilities_total m safe out avail el ids delta mu :
  valid_market m ->
  sumn (mJ m) (fst (probabilities_linear m (choice_with out avail el ids) safe delta mu))
  = sumn (mJ m) (nested (mJ m) (grpn m) (gidx m) (grhox m) (included avail el ids) out (utility m delta mu)).
Proof. intros V. apply sumn_ext. intros j Hj. apply probabilities_nested; assumption. Qed.

Lemma probabilities_proper m safe delta mu :
  valid_market m ->
  (forall j, (j < mJ m)%nat -> 0 < fst (probabilities_linear m full_choice safe delta mu) j) /\
  sumn (mJ m) (fst (probabilities_linear m full_choice safe delta mu)) < 1.
Proof.
  intros V. rewrite full_choice_with. split.
  - intros j Hj. rewrite probabilities_nested by assumption.
    apply nested_pos; [assumption|apply gidx_lt; assumption|reflexivity].
  - rewrite probabilities_total by assumption. apply nested_total_lt_1.
    intros j Hj; apply gidx_lt; assumption.
Qed.

Lemma probabilities_no_outside m safe avail el ids delta mu :
  valid_market m ->
  (exists k, (k < mJ m)%nat /\ included avail el ids k = true) ->
  sumn (mJ m) (fst (probabilities_linear m (choice_with false avail el ids) safe delta mu)) = 1.
Proof.
  intros V Hk. rewrite probabilities_total by assumption. apply nested_total_no_outside; [|assumption].
  intros j Hj; apply gidx_lt; assumption.
Qed.

(* ---------- elimination ---------- *)

(** The market in which product k does not exist. *)
Definition drop_product (m : market) (k : nat) : market :=
  mk_market (pred (mJ m)) (mH m) (fun j => gid m (skip k j)) (rho_multi m) (grho m) (eps_scale m).

Lemma drop_valid m k : valid_market m -> (1 < mJ m)%nat -> (k < mJ m)%nat -> valid_market (drop_product m k).
Proof.
  intros V HJ Hk. constructor; cbn [drop_product mJ mH gid rho_multi grho eps_scale].
  - lia.
  - intros HH j Hj. apply (vm_gid _ V HH). destruct (mJ m); [lia|]. apply skip_lt; cbn in *; lia.
  - apply (vm_rho _ V).
  - apply (vm_single _ V).
  - apply (vm_eps _ V).
  - apply (vm_eps_nest _ V).
Qed.

Lemma nested_drop n H grp r inc out V k j :
  (k < S n)%nat -> inc k = false ->
  nested (S n) H grp r inc out V (skip k j)
  = nested n H (fun i => grp (skip k i)) r (fun i => inc (skip k i)) out (fun i => V (skip k i)) j.
Proof.
  intros Hk E.
  assert (EI : forall h, inclusive (S n) grp r inc V h
     = inclusive n (fun i => grp (skip k i)) r (fun i => inc (skip k i)) (fun i => V (skip k i)) h).
  { intros h. unfold inclusive. rewrite (sumn_skip n k) by assumption. rewrite E; cbn [andb]. ring. }
  assert (EX : forall h, existsb (fun i => inc i && Nat.eqb (grp i) h) (seq 0 (S n))
     = existsb (fun i => inc (skip k i) && Nat.eqb (grp (skip k i)) h) (seq 0 n)).
  { intros h. apply eq_true_iff_eq. rewrite !existsb_seq_group. split.
    - intros [i [Hi Ei]]. assert (Hne : i <> k).
      { intros ->. rewrite E in Ei; discriminate. }
      destruct (skip_surj k i n Hi Hne) as [i' [[Hi' Es]|]]; [|lia].
      exists i'; split; [assumption|]. rewrite Es; assumption.
    - intros [i [Hi Ei]]. exists (skip k i); split; [apply skip_lt; lia|assumption]. }
  assert (EW : forall h, group_weight (S n) grp r inc V h
     = group_weight n (fun i => grp (skip k i)) r (fun i => inc (skip k i)) (fun i => V (skip k i)) h).
  { intros h. unfold group_weight. rewrite EX, EI. reflexivity. }
  unfold nested, within_group, group_share. rewrite EI, EW.
  rewrite (sumn_ext H _ _ (fun h _ => EW h)). reflexivity.
Qed.

Lemma eliminate_is_drop m safe delta mu k :
  valid_market m -> (1 < mJ m)%nat -> (k < mJ m)%nat ->
  let p := fst (probabilities_linear m (mk_choice false None (Some k) None) safe delta mu) in
  p k = 0 /\
  forall j, (j < pred (mJ m))%nat ->
    p (skip k j) = fst (probabilities_linear (drop_product m k) full_choice safe
                          (fun i => delta (skip k i)) (fun i => mu (skip k i))) j.
Proof.
  intros V HJ Hk p.
  assert (Ec : mk_choice false None (Some k) None = choice_with true None (Some k) None) by reflexivity.
  assert (VD := drop_valid m k V HJ Hk). unfold p. rewrite Ec. split.
  - rewrite probabilities_nested by assumption.
    unfold nested, within_group, included. rewrite Nat.eqb_refl. cbn [negb andb]. ring.
  - intros j Hj. rewrite full_choice_with.
    assert (Hs : (skip k j < mJ m)%nat) by (unfold skip; destruct (Nat.ltb_spec j k); lia).
    rewrite (probabilities_nested m), (probabilities_nested (drop_product m k)) by assumption.
    destruct m as [J H g rm gr ep]. cbn [mJ pred] in *. destruct J as [|n]; [lia|]. cbn [pred] in *.
    rewrite nested_drop; [|assumption|unfold included; rewrite Nat.eqb_refl; reflexivity].
    unfold grpn, gidx, grhox, utility, drop_product; cbn [mJ mH gid grho eps_scale pred].
    rewrite included_all. f_equal. apply functional_extensionality. intros i.
    unfold included, all_goods.
    destruct (Nat.eqb_spec (skip k i) k) as [Es|]; [|reflexivity].
    exfalso. exact (skip_neq k i Es).
Qed.

(** Shrinking the choice set: whatever is left gains. *)
Lemma nested_gain J H grp r inc inc' V j :
  (forall h, (h < H)%nat -> 0 <= r h < 1) ->
  (forall i, (i < J)%nat -> (grp i < H)%nat) ->
  (forall i, (i < J)%nat -> inc i = true -> inc' i = true) ->
  (j < J)%nat -> inc j = true ->
  nested J H grp r inc' true V j <= nested J H grp r inc true V j.
Proof.
  intros Hr Hg Hi Hj E. rewrite !nested_factor by auto.
  apply Rmult_le_compat_l; [left; apply exp_pos|].
  assert (Hh := Hg j Hj).
  destruct (residual_compare J H grp r inc inc' V V 0) with (h := grp j) as [A _].
  - intros h Hh'; apply Hr; assumption.
  - lra.
  - assumption.
  - intros; lra.
  - assumption.
  - apply Hr; assumption.
  - exists j; repeat split; assumption.
  - replace (- 0 / (1 - r (grp j))) with 0 in A by (unfold Rdiv; ring).
    rewrite exp_0, Rmult_1_r in A. exact A.
Qed.

Lemma nested_outside_gain J H grp r inc inc' V :
  (forall h, (h < H)%nat -> 0 <= r h < 1) ->
  (forall i, (i < J)%nat -> (grp i < H)%nat) ->
  (forall i, (i < J)%nat -> inc i = true -> inc' i = true) ->
  1 - sumn J (nested J H grp r inc' true V) <= 1 - sumn J (nested J H grp r inc true V).
Proof.
  intros Hr Hg Hi. rewrite !nested_total by assumption. cbn [indR].
  assert (HW := weights_nonneg J H grp r inc V). assert (HW' := weights_nonneg J H grp r inc' V).
  assert (C : sumn H (group_weight J grp r inc V) <= exp 0 * sumn H (group_weight J grp r inc' V)).
  { apply weights_compare.
    - intros h Hh; apply Hr; assumption.
    - assumption.
    - intros; lra. }
  rewrite exp_0, Rmult_1_l in C.
  set (W := sumn H (group_weight J grp r inc V)) in *.
  set (W' := sumn H (group_weight J grp r inc' V)) in *.
  replace (W / (1 + W)) with (1 - / (1 + W)) by (field; lra).
  replace (W' / (1 + W')) with (1 - / (1 + W')) by (field; lra).
  assert (/ (1 + W') <= / (1 + W)) by (apply Rinv_le_contravar; lra). lra.
Qed.

Lemma elimination_gain m safe delta mu avail el ids :
  valid_market m ->
  (mH m <> O -> forall h, (h < mH m)%nat -> 0 <= grho m h) ->
  let p0 := fst (probabilities_linear m full_choice safe delta mu) in
  let p := fst (probabilities_linear m (choice_with true avail el ids) safe delta mu) in
  (forall j, (j < mJ m)%nat ->
     (included avail el ids j = true -> p0 j <= p j) /\
     (included avail el ids j = false -> p j = 0)) /\
  1 - sumn (mJ m) p0 <= 1 - sumn (mJ m) p.
Proof.
  intros V Hr0 p0 p.
  assert (Hr : forall h, (h < grpn m)%nat -> 0 <= grhox m h < 1).
  { intros h Hh. split; [|apply grhox_lt; assumption]. unfold grhox, grpn in *.
    destruct (Nat.eqb_spec (mH m) 0) as [HH|HH]; [lra|]. apply Hr0; assumption. }
  unfold p0, p. rewrite full_choice_with. split.
  - intros j Hj. rewrite !probabilities_nested by assumption. split; intros E.
    + apply nested_gain; try assumption; [|intros; reflexivity].
      intros i Hi; apply gidx_lt; assumption.
    + unfold nested, within_group. rewrite E. ring.
  - rewrite !probabilities_total by assumption. apply nested_outside_gain; try assumption.
    + intros i Hi; apply gidx_lt; assumption.
    + intros; reflexivity.
Qed.

(* ---------- fixed point types ---------- *)

Lemma nonlinear_unreachable s :
  existsb (String.eqb s) ["safe_linear"; "linear"; "safe_nonlinear"; "nonlinear"]%string = true ->
  exists safe, compute_delta_branch s = LinearFP safe.
Proof.
  cbn [existsb]. rewrite !orb_true_iff, !String.eqb_eq.
  intros [->|[->|[->|[->|H]]]]; try discriminate; eexists; reflexivity.
Qed.

(** The nonlinear contraction, had it been reachable, is the linear one in exponentiated form. *)
Lemma nonlinear_plain m a safe shares x j :
  valid_market m -> valid_agents a -> mH m = O -> eps_scale m = 1 ->
  (forall k, (k < mJ m)%nat -> 0 < shares k) -> (j < mJ m)%nat ->
  nonlinear_contraction m a safe shares (fun k => exp (x k)) j
  = exp (contraction m a safe (None, None) shares x j).
Proof.
  intros V A HH He Hs Hj. unfold nonlinear_contraction, contraction. rewrite HH. cbn [Nat.eqb clip_share fst].
  assert (Hp := market_shares_pos m a safe x j V A Hj).
  assert (E : sumn (aI a) (fun i => nonlinear_probabilities m a safe true (fun k => exp (x k)) i j * aw a i)
              = market_shares m a safe x j * exp (- x j)).
  { unfold market_shares. rewrite <- sumn_scal_r. apply sumn_ext. intros i Hi.
    assert (EP : fst (probabilities_linear m full_choice safe x (amu a i)) j
              = logit (mJ m) all_goods true (utility m x (amu a i)) j).
    { rewrite full_choice_with.
      destruct (probabilities_spec m safe true None None None x (amu a i) V) as [P _].
      destruct (P HH) as [P1 _]. rewrite (P1 j Hj), included_all. reflexivity. }
    rewrite EP. clear EP.
    unfold nonlinear_probabilities, probabilities_nonlinear, finish_probabilities. rewrite HH.
    cbn [Nat.eqb fst]. unfold scale. cbn [c_eliminate_outside full_choice]. rewrite HH. cbn [Nat.eqb].
    unfold restrict_choice; cbn [c_availability c_eliminate c_eliminate_ids full_choice].
    unfold logit, all_goods, utility. rewrite He. cbn [indR].
    assert (ES : forall r, sumn (mJ m) (fun k => exp (x k) * exp (amu a i k - r))
        = exp (- r) * sumn (mJ m) (fun k => exp ((x k + amu a i k) / 1))).
    { intros r. rewrite <- sumn_scal. apply sumn_ext. intros k _. rewrite <- !exp_plus. f_equal. field. }
    assert (Hpos : 0 < 1 + sumn (mJ m) (fun k => exp ((x k + amu a i k) / 1))).
    { assert (0 <= sumn (mJ m) (fun k => exp ((x k + amu a i k) / 1))); [|lra].
      apply sumn_nonneg; intros; left; apply exp_pos. }
    destruct safe.
    - set (r := Rmax _ 0). rewrite ES.
      replace (exp (- r) + exp (- r) * sumn (mJ m) (fun k => exp ((x k + amu a i k) / 1)))
        with (exp (- r) * (1 + sumn (mJ m) (fun k => exp ((x k + amu a i k) / 1)))) by ring.
      set (D := 1 + _) in *.
      assert (exp (- r) <> 0) by (apply Rgt_not_eq, exp_pos).
      replace (exp (amu a i j - r)) with (exp (- r) * (exp ((x j + amu a i j) / 1) * exp (- x j))).
      2: { rewrite <- !exp_plus. f_equal. field. }
      field. split; [lra|assumption].
    - replace (sumn (mJ m) (fun k => exp (x k) * exp (amu a i k)))
        with (sumn (mJ m) (fun k => exp ((x k + amu a i k) / 1))).
      2: { apply sumn_ext; intros k _. rewrite <- exp_plus. f_equal. field. }
      set (D := 1 + _) in *.
      replace (exp (amu a i j)) with (exp ((x j + amu a i j) / 1) * exp (- x j)).
      2: { rewrite <- !exp_plus. f_equal. field. }
      field. lra. }
  rewrite E. unfold Rminus. rewrite !exp_plus, !exp_Ropp, !exp_ln by auto.
  field. split; [lra|apply Rgt_not_eq, exp_pos].
Qed.

Lemma nonlinear_nested m a shares x j :
  valid_market m -> valid_agents a -> mH m <> O -> eps_scale m = 1 ->
  (forall k, (k < mJ m)%nat -> 0 < shares k) -> (j < mJ m)%nat ->
  nonlinear_contraction m a false shares (fun k => exp (x k)) j
  = exp (contraction m a false (None, None) shares x j).
Proof.
  intros V A HH He Hs Hj. unfold nonlinear_contraction, contraction.
  destruct (Nat.eqb_spec (mH m) 0) as [|_]; [contradiction|]. cbn [clip_share fst].
  assert (Hp := market_shares_pos m a false x j V A Hj).
  assert (E : sumn (aI a) (fun i => nonlinear_probabilities m a false false (fun k => exp (x k)) i j * aw a i)
              = market_shares m a false x j).
  { unfold market_shares. apply sumn_ext. intros i Hi. f_equal.
    unfold nonlinear_probabilities, probabilities_nonlinear, probabilities_linear.
    destruct (finish_ext m full_choice None None
       (fun k => if Nat.eqb (mH m) 0 then exp (x k) * exp (amu a i k)
                 else Rpower (exp (x k) * exp (amu a i k)) (1 / (1 - rho m k)))
       (fun k => exp (scaled_utilities m x (amu a i) k))) as [F _].
    - intros k Hk. destruct (Nat.eqb_spec (mH m) 0) as [|_]; [contradiction|].
      unfold scaled_utilities. destruct (Nat.eqb_spec (mH m) 0) as [|_]; [contradiction|].
      rewrite He. destruct (Req_EM_T 1 1); [|lra].
      rewrite <- exp_plus. unfold Rpower. rewrite ln_exp. f_equal. unfold Rdiv. ring.
    - apply F; assumption. }
  rewrite E. rewrite exp_plus. f_equal. unfold Rpower, Rdiv.
  rewrite ln_mult, ln_Rinv by (auto; apply Rinv_0_lt_compat; assumption). f_equal. ring.
Qed.

(** With nesting, the safe nonlinear formulation rescales the outside option by
    exp(-r (1 - rho)), but utilities are reduced before they are divided by 1 - rho, so the
    right factor is exp(-r).  One product, one agent, mu = 1, rho = 1/2. *)
Definition wit_market : market := mk_market 1 1 (fun _ => O) false (fun _ => / 2) 1.
Definition wit_agents : agents := mk_agents 1 (fun _ => 1) (fun _ _ => 1).

Lemma wit_valid : valid_market wit_market.
Proof.
  constructor; cbn; intros; try lia; try lra; try reflexivity.
Qed.

Lemma wit_agents_valid : valid_agents wit_agents.
Proof. split; [intros; cbn; lra|exists O; cbn; split; [lia|lra]]. Qed.

Lemma safe_nonlinear_nested_wrong :
  nonlinear_contraction wit_market wit_agents true (fun _ => / 3) (fun _ => exp 0) 0
  <> exp (contraction wit_market wit_agents true (None, None) (fun _ => / 3) (fun _ => 0) 0).
Proof.
  intros E.
  unfold contraction in E. cbn [wit_market mH Nat.eqb clip_share fst] in E.
  assert (EL : market_shares wit_market wit_agents true (fun _ => 0) 0 = exp 1 / (1 + exp 1)).
  { unfold market_shares. cbn [wit_agents aI aw amu sumn].
    rewrite full_choice_with, probabilities_nested by (try apply wit_valid; cbn; lia).
    unfold nested, within_group, group_share, grpn, gidx, grhox, group_weight, inclusive, utility.
    cbn. rewrite !Rplus_0_l.
    set (u := (1) / 1 / (1 - / 2)).
    assert (Eu : u = 2) by (unfold u; lra). rewrite Eu.
    replace (Rpower (exp 2) (1 - / 2)) with (exp 1).
    2: { unfold Rpower. rewrite ln_exp. f_equal. lra. }
    assert (exp 2 <> 0) by (apply exp_neq_0). field. split; [|assumption].
    assert (0 < exp 1) by apply exp_pos. lra. }
  rewrite EL in E.
  unfold nonlinear_contraction in E. cbn [wit_market mH Nat.eqb wit_agents aI aw sumn] in E.
  assert (EN : nonlinear_probabilities wit_market wit_agents true false (fun _ => exp 0) 0 0
            = 1 / (exp (- (1 / 2)) + 1)).
  { unfold nonlinear_probabilities, probabilities_nonlinear, finish_probabilities.
    cbn. unfold gsum, scale, scale_weights, restrict_choice, rho; cbn.
    replace (Rmax 1 0) with 1 by (unfold Rmax; destruct (Rle_dec 1 0); lra).
    rewrite !Rplus_0_l.
    replace (1 - 1) with 0 by ring. rewrite exp_0, Rmult_1_r.
    assert (P1 : Rpower 1 (1 / (1 - / 2)) = 1).
    { unfold Rpower. rewrite ln_1, Rmult_0_r, exp_0. reflexivity. }
    rewrite P1.
    unfold exp_log_mult, div_or_zero. destruct (Rlt_dec 0 1); [|lra]. destruct (Req_EM_T 1 0); [lra|].
    rewrite ln_1, Rmult_0_l, exp_0.
    replace (- (1) * (1 - / 2)) with (- (1 / 2)) by lra.
    assert (0 < exp (- (1 / 2))) by apply exp_pos. field. lra. }
  rewrite EN, Rplus_0_l, Rmult_1_r, exp_0, Rmult_1_l, Rplus_0_l in E.
  unfold Rpower in E. apply exp_inv in E. unfold rho in E; cbn in E.
  assert (H1 : 0 < exp 1) by apply exp_pos. assert (H2 : 0 < exp (- (1 / 2))) by apply exp_pos.
  assert (H3 : 0 < exp 1 / (1 + exp 1)) by (apply Rdiv_lt_0_compat; lra).
  assert (H4 : 0 < 1 / (exp (- (1 / 2)) + 1)) by (apply Rdiv_lt_0_compat; lra).
  assert (EQ : ln (/ 3 / (1 / (exp (- (1 / 2)) + 1))) = ln (/ 3) - ln (1 / (exp (- (1 / 2)) + 1))).
  { unfold Rdiv at 1. set (q := 1 / (exp (- (1 / 2)) + 1)) in *.
    rewrite ln_mult, (ln_Rinv q); [reflexivity|assumption|lra|].
    apply Rinv_0_lt_compat; assumption. }
  rewrite EQ in E.
  assert (EE : exp 1 / (1 + exp 1) = 1 / (exp (- (1 / 2)) + 1)) by (apply ln_inv; [assumption|assumption|lra]).
  assert (E1 : exp 1 / (1 + exp 1) = 1 / (exp (- (1)) + 1)).
  { rewrite exp_Ropp. field. repeat split; lra. }
  rewrite E1 in EE.
  assert (H5 : 0 < exp (- (1))) by apply exp_pos.
  assert (H : exp (- (1)) = exp (- (1 / 2))).
  { apply (f_equal Rinv) in EE. unfold Rdiv in EE. rewrite !Rinv_mult, !Rinv_inv in EE. rewrite Rinv_1 in EE. lra. }
  apply exp_inv in H. lra.
Qed.

(* ---------- small epsilon scales ---------- *)

Definition eps_market : market := mk_market 1 0 (fun _ => O) false (fun _ => 0) (/ 4).
Definition eps_agents : agents := mk_agents 1 (fun _ => 1) (fun _ _ => 0).

Lemma eps_market_valid : valid_market eps_market.
Proof. constructor; cbn; intros; try lia; try lra; try congruence. Qed.

Lemma eps_agents_valid : valid_agents eps_agents.
Proof. split; [intros; cbn; lra|exists O; cbn; split; [lia|lra]]. Qed.

Lemma eps_share x : market_shares eps_market eps_agents true (fun _ => x) 0 = exp (4 * x) / (1 + exp (4 * x)).
Proof.
  unfold market_shares. cbn [eps_agents aI aw amu sumn].
  rewrite full_choice_with.
  destruct (probabilities_spec eps_market true true None None None (fun _ => x) (fun _ => 0) eps_market_valid) as [P _].
  destruct (P eq_refl) as [P1 _]. rewrite P1 by (cbn; lia).
  unfold logit, utility; cbn. rewrite !Rplus_0_l.
  replace ((x + 0) / / 4) with (4 * x) by field.
  field. assert (0 < exp (4 * x)) by apply exp_pos. lra.
Qed.

Lemma contraction_expands :
  exists x y, Rabs (x - y) <= 1 /\
    1 < Rabs (contraction eps_market eps_agents true (None, None) (fun _ => / 2) (fun _ => x) 0
              - contraction eps_market eps_agents true (None, None) (fun _ => / 2) (fun _ => y) 0).
Proof.
  exists (-1), 0. split.
  - rewrite Rabs_left; lra.
  - unfold contraction. cbn [eps_market mH Nat.eqb clip_share fst].
    fold eps_market. rewrite !eps_share.
    assert (L : forall z, ln (exp z / (1 + exp z)) = z - ln (1 + exp z)).
    { intros z. assert (0 < exp z) by apply exp_pos. unfold Rdiv.
      rewrite ln_mult, ln_Rinv, ln_exp by (try lra; apply Rinv_0_lt_compat; lra). ring. }
    rewrite !L, Rmult_0_r, exp_0.
    replace (-1 + ln (/ 2) - (4 * -1 - ln (1 + exp (4 * -1))) - (0 + ln (/ 2) - (0 - ln (1 + 1))))
      with (3 + ln (1 + exp (4 * -1)) - ln 2) by (replace (1 + 1) with 2 by ring; ring).
    assert (0 < exp (4 * -1)) by apply exp_pos.
    assert (0 <= ln (1 + exp (4 * -1))).
    { rewrite <- ln_1. apply ln_le'; lra. }
    assert (ln 2 <= 1).
    { rewrite <- (ln_exp 1). apply ln_le'; [lra|]. assert (1 + 1 < exp 1) by (apply exp_ineq1; lra). lra. }
    eapply Rlt_le_trans; [|apply Rle_abs]. lra.
Qed.

(* ---------- forms used by the property theorems ---------- *)

Lemma probabilities_are_logit m safe delta mu :
  valid_market m ->
  let V := fun j => (delta j + mu j) / eps_scale m in
  let p := fst (probabilities_linear m full_choice safe delta mu) in
  (mH m = O -> forall j, (j < mJ m)%nat -> p j = logit (mJ m) all_goods true V j) /\
  (mH m <> O -> forall j, (j < mJ m)%nat ->
     p j = nested (mJ m) (mH m) (gid m) (grho m) all_goods true V j).
Proof.
  intros V. destruct (probabilities_spec m safe true None None None delta mu V) as [A B].
  split; intros HH.
  - destruct (A HH) as [A1 _]. exact A1.
  - destruct (B HH) as [B1 _]. exact B1.
Qed.

Lemma shares_are_averaged m a safe x j : valid_market m -> (j < mJ m)%nat ->
  market_shares m a safe x j =
  sumn (aI a) (fun i =>
    (if Nat.eqb (mH m) 0
     then logit (mJ m) all_goods true (fun k => (x k + amu a i k) / eps_scale m) j
     else nested (mJ m) (mH m) (gid m) (grho m) all_goods true (fun k => (x k + amu a i k) / eps_scale m) j)
    * aw a i).
Proof.
  intros V Hj. unfold market_shares. apply sumn_ext. intros i Hi. f_equal.
  destruct (probabilities_are_logit m safe x (amu a i) V) as [A B].
  destruct (Nat.eqb_spec (mH m) 0) as [HH|HH]; [apply A|apply B]; assumption.
Qed.

Lemma small_epsilon_refuted :
  exists m a shares x y, valid_market m /\ valid_agents a /\ (0 < shares O < 1) /\ mJ m = 1%nat /\
    Rabs (x O - y O) <= 1 /\
    1 < Rabs (contraction m a true (None, None) shares x O - contraction m a true (None, None) shares y O).
Proof.
  destruct contraction_expands as [x [y [H1 H2]]].
  exists eps_market, eps_agents, (fun _ => / 2), (fun _ => x), (fun _ => y).
  split; [apply eps_market_valid|]. split; [apply eps_agents_valid|]. repeat split; try lra; assumption.
Qed.

Lemma always_linear e s : valid_fp_type e s = true -> exists safe, compute_delta_branch s = LinearFP safe.
Proof. intros H. apply andb_true_iff in H. apply nonlinear_unreachable, H. Qed.

Lemma nonlinear_equivalent m a safe shares x j :
  valid_market m -> valid_agents a -> eps_scale m = 1 -> (mH m <> O -> safe = false) ->
  (forall k, (k < mJ m)%nat -> 0 < shares k) -> (j < mJ m)%nat ->
  nonlinear_contraction m a safe shares (fun k => exp (x k)) j
  = exp (contraction m a safe (None, None) shares x j).
Proof.
  intros V A E S Hs Hj. destruct (Nat.eq_dec (mH m) 0) as [HH|HH].
  - apply nonlinear_plain; assumption.
  - rewrite (S HH). apply nonlinear_nested; assumption.
Qed.

Lemma safe_nonlinear_nested_refuted :
  exists m a shares x, valid_market m /\ valid_agents a /\ eps_scale m = 1 /\
    (forall k, 0 < shares k) /\ (0 < mJ m)%nat /\
    nonlinear_contraction m a true shares (fun k => exp (x k)) O
    <> exp (contraction m a true (None, None) shares x O).
Proof.
  exists wit_market, wit_agents, (fun _ => / 3), (fun _ => 0).
  split; [apply wit_valid|]. split; [apply wit_agents_valid|].
  split; [reflexivity|]. split; [intros; cbn; lra|]. split; [cbn; lia|].
  exact safe_nonlinear_nested_wrong.
Qed.

(** Which shares are flagged. *)
Lemma clip_flag (bounds : option R * option R) (s : R) :
  (forall lb ub, bounds = (Some lb, Some ub) -> lb <= ub) ->
  snd (clip_share bounds s) = true <->
  (exists lb, fst bounds = Some lb /\ s < lb) \/ (exists ub, snd bounds = Some ub /\ ub < s).
Proof.
  intros H. destruct bounds as [[lb|] [ub|]]; cbn [clip_share fst snd].
  - specialize (H lb ub eq_refl). destruct (Rlt_dec s lb) as [L|L].
    + split; [|intros _; cbn [orb]; reflexivity]. intros _. left. exists lb. auto.
    + destruct (Rlt_dec ub s) as [U|U]; cbn [orb].
      * split; [|reflexivity]. intros _. right. exists ub. auto.
      * split; [discriminate|]. intros [[q [E Q]]|[q [E Q]]]; injection E as <-; contradiction.
  - destruct (Rlt_dec s lb) as [L|L]; cbn [snd].
    + split; [|reflexivity]. intros _. left. exists lb. auto.
    + split; [discriminate|]. intros [[q [E Q]]|[q [E Q]]]; [injection E as <-; contradiction|discriminate].
  - destruct (Rlt_dec ub s) as [U|U]; cbn [snd].
    + split; [|reflexivity]. intros _. right. exists ub. auto.
    + split; [discriminate|]. intros [[q [E Q]]|[q [E Q]]]; [discriminate|injection E as <-; contradiction].
  - split; [discriminate|]. intros [[q [E Q]]|[q [E Q]]]; discriminate.
Qed.
