(** Special cases: proofs. *)
From Coq Require Import Reals Lra Lia List Bool Arith FunctionalExtensionality.
From Verif Require Import Base DemandModel DemandSpec DemandProofs DemandShares DemandDeriv DemandProps SupplyModel SupplySpec SupplyProofs SupplyProps DerivModel WelfareModel WelfareSpec WelfareProofs NamesProofs SpecialSpec.
Import ListNotations.
Local Open Scope R_scope.

Section Weights.
  Variables (J H : nat) (g : nat -> nat) (r : nat -> R) (inc : nat -> bool) (V : nat -> R).
  Hypothesis Hg : forall j, (j < J)%nat -> (g j < H)%nat.
  Hypothesis Hr : forall h, (h < H)%nat -> r h < 1.
  Hypothesis HI : forall j k, (j < J)%nat -> (k < J)%nat -> g j = g k -> j = k \/ r (g j) = 0.

  Lemma idle_weight j : (j < J)%nat -> within_group J g r inc V j * group_weight J g r inc V (g j) = if inc j then exp (V j) else 0.
  Proof using Hg Hr HI.
    intro Hj. unfold within_group. destruct (inc j) eqn:E; [|ring].
    assert (Ex : existsb (fun k => inc k && Nat.eqb (g k) (g j)) (seq 0 J) = true).
    { apply existsb_exists. exists j. split; [apply in_seq; lia|]. rewrite E, Nat.eqb_refl. reflexivity. }
    assert (P := inclusive_pos J g r inc V (g j) Ex). rewrite (group_weight_inclusive J g r inc V (g j) Ex).
    assert (R1 := Hr (g j) (Hg j Hj)).
    destruct (Req_dec (r (g j)) 0) as [Z|Z].
    - rewrite Z, Rminus_0_r, Rpower_1 by exact P. unfold Rdiv at 2. rewrite Rinv_1, Rmult_1_r. field. lra.
    - assert (I : inclusive J g r inc V (g j) = exp (V j / (1 - r (g j)))).
      { unfold inclusive. rewrite (sumn_single J j).
        - rewrite E, Nat.eqb_refl. reflexivity.
        - exact Hj.
        - intros k Hk Hkj. destruct (Nat.eqb_spec (g k) (g j)) as [e|]; [|rewrite andb_false_r; reflexivity]. exfalso.
          destruct (HI j k Hj Hk (eq_sym e)) as [F|F]; [apply Hkj; symmetry; exact F|contradiction]. }
      rewrite I. unfold Rpower. rewrite ln_exp. replace ((1 - r (g j)) * (V j / (1 - r (g j)))) with (V j) by (field; lra).
      field. apply Rgt_not_eq, exp_pos.
  Qed.
  Lemma idle_weights : sumn H (group_weight J g r inc V) = sumn J (fun j => if inc j then exp (V j) else 0).
  Proof using Hg Hr HI. rewrite (weights_by_product J inc V H g r Hg). apply sumn_ext. exact idle_weight. Qed.
  Lemma idle_nested out j : (j < J)%nat -> nested J H g r inc out V j = logit J inc out V j.
  Proof using Hg Hr HI.
    intro Hj. unfold nested, group_share. rewrite idle_weights. unfold Rdiv. rewrite <- Rmult_assoc, (idle_weight j Hj). unfold logit. destruct (inc j); [reflexivity|ring].
  Qed.
End Weights.

Lemma without_valid m : valid_market m -> valid_market (without_nests m).
Proof. intro V. constructor; cbn; intros; try lia; try lra; try congruence. - exact (vm_J _ V). - exact (vm_eps _ V). Qed.

Lemma idle_probabilities m safe safe' out avail el ids delta mu j : valid_market m -> idle_nests m -> (j < mJ m)%nat ->
  fst (probabilities_linear m (choice_with out avail el ids) safe delta mu) j
  = fst (probabilities_linear (without_nests m) (choice_with out avail el ids) safe' delta mu) j.
Proof.
  intros V I Hj. destruct (probabilities_spec m safe out avail el ids delta mu V) as [A B].
  destruct (probabilities_spec (without_nests m) safe' out avail el ids delta mu (without_valid m V)) as [A' _].
  destruct (A' eq_refl) as [A1 _]. rewrite (A1 j Hj).
  destruct (Nat.eq_dec (mH m) 0) as [HH|HH].
  - destruct (A HH) as [A2 _]. rewrite (A2 j Hj). reflexivity.
  - destruct (B HH) as [B1 _]. rewrite (B1 j Hj). apply idle_nested; [apply (vm_gid _ V HH)|apply (vm_rho _ V HH)|exact I|exact Hj].
Qed.

Lemma idle_full m safe safe' delta mu j : valid_market m -> idle_nests m -> (j < mJ m)%nat ->
  fst (probabilities_linear m full_choice safe delta mu) j = fst (probabilities_linear (without_nests m) full_choice safe' delta mu) j.
Proof. rewrite full_choice_with. apply idle_probabilities. Qed.

Lemma idle_shares m a safe safe' delta j : valid_market m -> idle_nests m -> (j < mJ m)%nat ->
  market_shares m a safe delta j = market_shares (without_nests m) a safe' delta j.
Proof. intros V I Hj. unfold market_shares. apply sumn_ext. intros i _. rewrite (idle_full m safe safe' delta (amu a i) j V I Hj). reflexivity. Qed.

Lemma idle_fixed_points m a safe safe' shares x : valid_market m -> valid_agents a -> idle_nests m -> (forall j, (j < mJ m)%nat -> 0 < shares j) ->
  ((forall j, (j < mJ m)%nat -> contraction m a safe (None, None) shares x j = x j) <->
   (forall j, (j < mJ m)%nat -> contraction (without_nests m) a safe' (None, None) shares x j = x j)).
Proof.
  intros V A I S. assert (E1 := C04_fixed_point_iff_shares_match m a safe (None, None) shares x V A S Logic.I Logic.I).
  assert (E2 := C04_fixed_point_iff_shares_match (without_nests m) a safe' (None, None) shares x (without_valid m V) A S Logic.I Logic.I).
  cbn [without_nests mJ] in E2. split; intro E; [apply (proj2 E2); generalize (proj1 E1 E); clear E; intro E|apply (proj2 E1); generalize (proj1 E2 E); clear E; intro E]; intros j Hj; [rewrite <- (idle_shares m a safe safe' x j V I Hj)|rewrite (idle_shares m a safe safe' x j V I Hj)]; exact (E j Hj).
Qed.

Lemma idle_closed_form m shares j : valid_market m -> idle_nests m -> (j < mJ m)%nat -> closed_form_delta m shares j = closed_form_delta (without_nests m) shares j.
Proof.
  intros V I Hj. unfold closed_form_delta. cbn [without_nests mH mJ eps_scale Nat.eqb].
  destruct (Nat.eqb_spec (mH m) 0) as [HH|HH]; [reflexivity|].
  assert (Z : rho m j * (ln (shares j) - ln (gsum m shares (gid m j))) = 0).
  { destruct (Req_dec (grho m (gid m j)) 0) as [Z|Z]; [unfold rho; rewrite Z; ring|].
    assert (G : gsum m shares (gid m j) = shares j).
    { unfold gsum. rewrite (sumn_single (mJ m) j); [rewrite Nat.eqb_refl; reflexivity|exact Hj|].
      intros k Hk Hkj. destruct (Nat.eqb_spec (gid m k) (gid m j)) as [e|]; [|reflexivity]. exfalso.
      destruct (I j k Hj Hk (eq_sym e)) as [F|F]; [apply Hkj; symmetry; exact F|contradiction]. }
    rewrite G. ring. }
  rewrite Z, Rminus_0_r. reflexivity.
Qed.

Lemma idle_surplus m avail mask delta mu : valid_market m -> idle_nests m ->
  surplus_numerator m (option_map (fun b j => indR (b j)) avail) mask delta mu
  = surplus_numerator (without_nests m) (option_map (fun b j => indR (b j)) avail) mask delta mu.
Proof.
  intros V I. rewrite (surplus_numerator_exact m avail mask delta mu V), (surplus_numerator_exact (without_nests m) avail mask delta mu (without_valid m V)).
  f_equal. f_equal. rewrite (surplus_weights_plain (without_nests m)) by reflexivity.
  destruct (Nat.eq_dec (mH m) 0) as [HH|HH]; [rewrite (surplus_weights_plain m) by exact HH; reflexivity|].
  rewrite (surplus_weights_nest m) by exact HH. apply (idle_weights (mJ m) (mH m) (gid m) (grho m)); [apply (vm_gid _ V HH)|apply (vm_rho _ V HH)|exact I].
Qed.

Section Full.
  Variable M : full_market.
  Hypothesis V : valid_market (fm M).
  Hypothesis I : idle_nests (fm M).
  Notation M0 := (full_without_nests M).

  Lemma idle_shares_at x j : (j < mJ (fm M))%nat -> shares_at M x j = shares_at M0 x j.
  Proof using V I. intro Hj. unfold shares_at, probs. apply sumn_ext. intros i _. cbn [full_without_nests fm fw]. rewrite (idle_full (fm M) true true _ _ j V I Hj). reflexivity. Qed.
  Lemma idle_jacobian x j k : good_columns M x -> (j < mJ (fm M))%nat -> (k < mJ (fm M))%nat -> shares_jacobian M x j k = shares_jacobian M0 x j k.
  Proof using V I.
    intros G Hj Hk.
    assert (D := C14_jacobian_is_derivative M x V G j k Hj Hk).
    assert (D0 := C14_jacobian_is_derivative M0 x (without_valid _ V) G j k Hj Hk).
    apply (uniqueness_limite (fun t => shares_at M (upd x k t) j) (x k)); [exact D|].
    apply (dlim_ext (fun t => shares_at M0 (upd x k t) j)); [intro y; symmetry; apply idle_shares_at, Hj|exact D0].
  Qed.
  Lemma delta_is_jacobian (N : full_market) O x j k : capital_delta N O x j k = - shares_jacobian N x k j * O j k.
  Proof using. unfold capital_delta, shares_jacobian, jacobian_of, gamma_at, lamda_at. ring. Qed.
  Lemma idle_capital_delta O x j k : good_columns M x -> (j < mJ (fm M))%nat -> (k < mJ (fm M))%nat -> capital_delta M O x j k = capital_delta M0 O x j k.
  Proof using V I. intros G Hj Hk. rewrite !delta_is_jacobian, (idle_jacobian x k j G Hk Hj). reflexivity. Qed.
  Lemma idle_elasticities observed j k : good_columns M (var0 M) -> (j < mJ (fm M))%nat -> (k < mJ (fm M))%nat -> elasticities M observed j k = elasticities M0 observed j k.
  Proof using V I. intros G Hj Hk. unfold elasticities. rewrite (idle_jacobian _ j k G Hj Hk). reflexivity. Qed.
  Lemma idle_diversion j k : good_columns M (var0 M) -> (j < mJ (fm M))%nat -> (k < mJ (fm M))%nat ->
    diversion_ratios (mJ (fm M)) (shares_jacobian M (var0 M)) j k = diversion_ratios (mJ (fm M)) (shares_jacobian M0 (var0 M)) j k.
  Proof using V I.
    intros G Hj Hk. unfold diversion_ratios. rewrite (idle_jacobian _ j j G Hj Hj), (idle_jacobian _ j k G Hj Hk).
    rewrite (sumn_ext (mJ (fm M)) (shares_jacobian M (var0 M) j) (shares_jacobian M0 (var0 M) j)) by (intros l Hl; apply idle_jacobian; assumption). reflexivity.
  Qed.
  Lemma idle_bertrand O costs p : bertrand (mJ (fm M)) O costs (shares_at M) p <-> bertrand (mJ (fm M)) O costs (shares_at M0) p.
  Proof using V I.
    assert (E : forall q j, weighted_profit (mJ (fm M)) O costs (shares_at M) q j = weighted_profit (mJ (fm M)) O costs (shares_at M0) q j).
    { intros q j. apply sumn_ext. intros k Hk. rewrite (idle_shares_at q k Hk). reflexivity. }
    split; intros B j Hj; specialize (B j Hj); (eapply dlim_ext; [|exact B]); intro y; cbv beta; [apply E|symmetry; apply E].
  Qed.
  Lemma idle_consumer_surplus avail mask x : consumer_surplus M (fun i => option_map (fun b j => indR (b j)) (avail i)) mask x
    = consumer_surplus M0 (fun i => option_map (fun b j => indR (b j)) (avail i)) mask x.
  Proof using V I.
    unfold consumer_surplus, individual_surplus. apply sumn_ext. intros i _. cbn [full_without_nests fm fw]. rewrite (idle_surplus (fm M)) by assumption. reflexivity.
  Qed.
End Full.

(** Agents who are all alike. *)
Lemma alike_shares m a safe delta mu j : alike_agents a (mJ m) mu -> valid_market m -> (j < mJ m)%nat ->
  market_shares m a safe delta j = sumn (aI a) (aw a) * fst (probabilities_linear m full_choice safe delta mu) j.
Proof.
  intros A V Hj. unfold market_shares. rewrite <- sumn_scal_r. apply sumn_ext. intros i Hi. rewrite full_choice_with.
  rewrite !(probabilities_nested m safe true None None None) by assumption.
  rewrite (nested_ext (mJ m) _ _ _ _ (included None None None) true (utility m delta (amu a i)) (utility m delta mu) j Hj).
  - ring.
  - reflexivity.
  - intros k Hk. unfold utility. rewrite (A i k Hi Hk). reflexivity.
Qed.
Lemma alike_closed_form m a safe shares : alike_agents a (mJ m) (fun _ => 0) -> valid_market m -> sumn (aI a) (aw a) = 1 ->
  (forall k, (k < mJ m)%nat -> 0 < shares k) -> sumn (mJ m) shares < 1 ->
  forall j, (j < mJ m)%nat -> market_shares m a safe (closed_form_delta m shares) j = shares j.
Proof.
  intros A V W S L j Hj. rewrite (alike_shares m a safe _ (fun _ => 0) j A V Hj), W, Rmult_1_l. apply closed_form_inverts; try assumption. intros; reflexivity.
Qed.
Lemma no_heterogeneity M x j : valid_market (fm M) -> (forall k l i, fcoef M k l i = 0) -> (j < mJ (fm M))%nat ->
  shares_at M x j = sumn (fI M) (fw M) * fst (probabilities_linear (fm M) full_choice true (update_delta M x) (fun _ => 0)) j.
Proof.
  intros V Z Hj. change (shares_at M x j) with (market_shares (fm M) (agents_with M (update_mu M x)) true (update_delta M x) j).
  apply (alike_shares (fm M) (agents_with M (update_mu M x)) true (update_delta M x) (fun _ => 0) j); [|exact V|exact Hj].
  intros i k _ _. cbn [agents_with amu]. unfold update_mu, compute_mu. rewrite (sumn_ext _ _ (fun _ => 0)); [apply sumn_zero|]. intros l _. rewrite Z. ring.
Qed.

(** Scales. *)
Lemma unit_probabilities m c safe safe' delta mu j : valid_market m -> mH m = O -> (j < mJ m)%nat ->
  fst (probabilities_linear m c safe delta mu) j
  = fst (probabilities_linear (unit_scale m) c safe' (fun k => delta k / eps_scale m) (fun k => mu k / eps_scale m)) j.
Proof.
  intros V HH Hj. assert (V' : valid_market (unit_scale m)).
  { constructor; cbn; try apply V; try lra; try reflexivity. }
  assert (G : forall n b d u, valid_market n -> (j < mJ n)%nat -> fst (probabilities_linear n c b d u) j = fst (probabilities_linear n c false d u) j).
  { intros n b d u Vn Hn. destruct b; [|reflexivity]. destruct (safe_is_exact n c d u Vn) as [E _]. apply E, Hn. }
  rewrite (G m safe) by assumption. rewrite (G (unit_scale m) safe') by assumption.
  unfold probabilities_linear. assert (E : scaled_utilities m delta mu = scaled_utilities (unit_scale m) (fun k => delta k / eps_scale m) (fun k => mu k / eps_scale m)).
  { apply functional_extensionality. intro k. unfold scaled_utilities. cbn [unit_scale mH eps_scale]. rewrite HH. cbn [Nat.eqb].
    assert (P := vm_eps _ V). destruct (Req_EM_T 1 1); [|lra]. destruct (Req_EM_T (eps_scale m) 1) as [->|]; field; lra. }
  rewrite E. unfold finish_probabilities, scale. cbn [unit_scale mH mJ]. rewrite HH. reflexivity.
Qed.

(** No heterogeneity: zero sigma and pi. *)
Lemma zero_tastes M (T : tastes) delta x j safe : valid_market (fm M) -> (j < mJ (fm M))%nat ->
  let zero := fun _ _ : nat => 0 in
  let M' := tastes_at M T delta zero zero in
  market_shares (fm M) (agents_with M' (update_mu M' x)) safe (update_delta M' x) j
  = sumn (fI M) (fw M) * fst (probabilities_linear (fm M) full_choice safe (update_delta M' x) (update_mu M' x 0)) j.
Proof.
  intros V Hj zero M'. apply (alike_shares (fm M) (agents_with M' (update_mu M' x)) safe (update_delta M' x) (update_mu M' x 0) j); [|exact V|exact Hj].
  intros i k _ _. cbn [agents_with amu]. unfold update_mu, compute_mu, M'. cbn [tastes_at fK2 fX2 fcoef X2_0]. apply sumn_ext. intros l _. f_equal.
  unfold random_coefficients. f_equal. f_equal; apply sumn_ext; intros; unfold zero; ring.
Qed.
Lemma closed_form_fixed m a safe shares : alike_agents a (mJ m) (fun _ => 0) -> valid_market m -> valid_agents a -> sumn (aI a) (aw a) = 1 ->
  (mH m <> O -> forall h, (h < mH m)%nat -> 0 <= grho m h) -> (forall k, (k < mJ m)%nat -> 0 < shares k) -> sumn (mJ m) shares < 1 ->
  forall x, (forall j, (j < mJ m)%nat -> x j = closed_form_delta m shares j) <->
            (forall j, (j < mJ m)%nat -> contraction m a safe (None, None) shares x j = x j).
Proof.
  intros A V VA W R0 S L x. assert (F := C04_fixed_point_iff_shares_match m a safe (None, None) shares x V VA S Logic.I Logic.I).
  assert (K := alike_closed_form m a safe shares A V W S L).
  split.
  - intro E. apply (proj2 F). intros j Hj. rewrite <- (K j Hj). unfold market_shares. apply sumn_ext. intros i Hi. f_equal.
    rewrite full_choice_with. rewrite !(probabilities_nested m safe true None None None) by assumption.
    apply nested_ext; [exact Hj|reflexivity|]. intros k Hk. unfold utility. rewrite (E k Hk). reflexivity.
  - intro E. generalize (proj1 F E). clear E. intro E. intros j Hj.
    apply (shares_injective m a safe x (closed_form_delta m shares) V VA R0); [intros k Hk; rewrite (E k Hk), (K k Hk); reflexivity|exact Hj].
Qed.
Lemma nests_matter : exists m delta, valid_market m /\ mH m <> O /\
  fst (probabilities_linear m full_choice true delta (fun _ => 0)) 0%nat <> fst (probabilities_linear (without_nests m) full_choice true delta (fun _ => 0)) 0%nat.
Proof.
  set (m := mk_market 2 1 (fun _ => O) false (fun _ => / 2) 1).
  assert (V : valid_market m) by (constructor; cbn; intros; try lia; try lra; try congruence).
  exists m, (fun _ => 0). split; [exact V|]. split; [discriminate|].
  rewrite full_choice_with.
  destruct (probabilities_spec m true true None None None (fun _ => 0) (fun _ => 0) V) as [_ B]. destruct (B ltac:(discriminate)) as [B1 _].
  destruct (probabilities_spec (without_nests m) true true None None None (fun _ => 0) (fun _ => 0) (without_valid m V)) as [A _]. destruct (A eq_refl) as [A1 _].
  rewrite B1 by (cbn; lia). rewrite A1 by (cbn; lia).
  assert (U : forall n : market, eps_scale n = 1 -> utility n (fun _ => 0) (fun _ => 0) = fun _ => 0).
  { intros n E. apply functional_extensionality. intro k. unfold utility. rewrite E. field. }
  rewrite !U by reflexivity. rewrite included_all. cbn [m without_nests mJ mH gid grho].
  assert (E2 : forall y, y = 0 / (1 - / 2) -> exp y = 1). { intros y ->. replace (0 / (1 - / 2)) with 0 by field. apply exp_0. }
  unfold nested, within_group, group_share, group_weight, logit, all_goods, inclusive. cbn -[Rpower exp].
  rewrite !(E2 (0 / (1 - / 2)) eq_refl), !exp_0. replace (0 + 1 + 1) with 2 by ring.
  replace (1 - / 2) with (/ 2) by field. rewrite Rpower_sqrt by lra. assert (Q := sqrt_lt_R0 2 ltac:(lra)). assert (Q2 := sqrt_sqrt 2 ltac:(lra)).
  intro F. replace (1 + (0 + sqrt 2)) with (1 + sqrt 2) in F by ring.
  assert (G : 3 * sqrt 2 = 2 * (1 + sqrt 2)).
  { replace (3 * sqrt 2) with (1 / 2 * (sqrt 2 / (1 + sqrt 2)) * (6 * (1 + sqrt 2))) by (field; lra). rewrite F. field. }
  assert (sqrt 2 = 2) by lra. rewrite H in Q2. lra.
Qed.
