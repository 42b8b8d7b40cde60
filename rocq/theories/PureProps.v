(** What happens as idiosyncratic preferences vanish, and what does not depend on how utility is normalised (C162). *)
From Coq Require Import Reals Lra Lia List Bool Arith FunctionalExtensionality.
From Verif Require Import Base DemandSpec DemandModel DemandProofs SupplyModel SupplyProofs WelfareModel WelfareSpec WelfareProofs PureSpec PureProofs.
Import ListNotations.
Local Open Scope R_scope.

(** Without nests, choice probabilities differ from choices of the best option by an amount that is exponentially small in how much worse
    other options are, relative to the scale of idiosyncratic preferences. *)
Theorem C162_probabilities :
  forall m e g delta mu safe j, valid_market m -> mH m = 0%nat -> 0 < e -> 0 < g -> gap (mJ m) (fun k => delta k + mu k) g -> (j < mJ m)%nat ->
  Rabs (fst (probabilities_linear (with_scale e m) full_choice safe delta mu) j - pure_choice (mJ m) (fun k => delta k + mu k) j)
  <= INR (mJ m) * exp (- (g / e)).
Proof. exact pure_probability. Qed.
Print Assumptions C162_probabilities.

(** Hence shares: they approach those of the pure characteristics model, whatever the tastes of consumers. *)
Theorem C162_shares :
  forall m a delta safe j, valid_market m -> mH m = 0%nat -> (forall i, (i < aI a)%nat -> 0 <= aw a i) -> (j < mJ m)%nat ->
  tends_to (fun e => market_shares (with_scale e m) a safe delta j) (pure_share (mJ m) a delta j) /\
  forall e g, 0 < e -> 0 < g -> (forall i, (i < aI a)%nat -> gap (mJ m) (fun k => delta k + amu a i k) g) ->
  Rabs (market_shares (with_scale e m) a safe delta j - pure_share (mJ m) a delta j) <= INR (mJ m) * exp (- (g / e)) * sumn (aI a) (aw a).
Proof.
  intros m a delta safe j V HH W Hj. split.
  - destruct (common_gap (mJ m) (fun i k => delta k + amu a i k) (aI a)) as [g [G Gp]].
    apply squeezed with (fun e => INR (mJ m) * sumn (aI a) (aw a) * exp (- (g / e))).
    + apply vanishing; [apply Rmult_le_pos; [apply pos_INR|apply sumn_nonneg; exact W]|exact G].
    + intros e E. eapply Rle_trans; [apply (pure_shares m a e g delta safe j V HH E G W Gp Hj)|]. right. ring.
  - intros e g E G Gp. apply pure_shares; assumption.
Qed.
Print Assumptions C162_shares.

(** At the other extreme, when utilities are small relative to the scale, every option is almost equally likely. *)
Theorem C162_large_scales :
  forall m e B delta mu safe j, valid_market m -> mH m = 0%nat -> 0 < e -> 0 <= B -> (forall k, (k < mJ m)%nat -> Rabs (delta k + mu k) <= B) -> (j < mJ m)%nat ->
  exp (- (2 * B / e)) / (INR (mJ m) + 1) <= fst (probabilities_linear (with_scale e m) full_choice safe delta mu) j <= exp (2 * B / e) / (INR (mJ m) + 1).
Proof.
  intros m e B delta mu safe j V HH E HB H Hj.
  rewrite (proj1 (DemandElim.probabilities_are_logit (with_scale e m) safe delta mu (scale_valid e m E HH V)) HH j Hj). cbn [eps_scale with_scale mJ].
  exact (near_uniform (mJ m) (fun k => delta k + mu k) B e j E HB H Hj).
Qed.
Print Assumptions C162_large_scales.

(** Multiplying all preferences, idiosyncratic ones included, by a positive number multiplies utilities by it and changes nothing that can
    be observed: shares, derivatives, elasticities, diversion ratios, markups, marginal costs and equilibrium prices.  Nests are allowed. *)
Theorem C162_normalisation :
  forall c M x, 0 < c -> eps_scale (fm M) <> 0 ->
  (forall j, update_delta (stronger c M) x j = c * update_delta M x j) /\
  (forall i j, update_mu (stronger c M) x i j = c * update_mu M x i j) /\
  shares_at (stronger c M) x = shares_at M x /\
  shares_jacobian (stronger c M) x = shares_jacobian M x /\
  (forall observed, elasticities (stronger c M) observed = elasticities M observed) /\
  (forall solve ownership observed, compute_costs solve (stronger c M) ownership observed = compute_costs solve M ownership observed) /\
  (forall solve old new observed costs, compute_approximate_prices solve (stronger c M) old new observed costs = compute_approximate_prices solve M old new observed costs) /\
  (forall ownership costs, price_contraction (stronger c M) ownership costs x = price_contraction M ownership costs x) /\
  price_weights (stronger c M) x = price_weights M x.
Proof.
  intros c M x C E. assert (C' : c <> 0) by lra. destruct (stronger_same c M x C' E) as [S [L [G D]]]. destruct (stronger_same c M (var0 M) C' E) as [S0 [L0 [G0 D0]]].
  assert (CD : forall own, capital_delta (stronger c M) own (var0 M) = capital_delta M own (var0 M)).
  { intros own. apply functional_extensionality. intros j. apply functional_extensionality. intros k. unfold capital_delta. rewrite G0, L0. reflexivity. }
  assert (EE : forall solve own obs, compute_eta solve (stronger c M) own obs = compute_eta solve M own obs).
  { intros solve own obs. unfold compute_eta. change (var0 (stronger c M)) with (var0 M). rewrite CD. reflexivity. }
  assert (CC : forall solve own obs, compute_costs solve (stronger c M) own obs = compute_costs solve M own obs).
  { intros solve own obs. unfold compute_costs. rewrite EE. reflexivity. }
  split; [intros j; rewrite stronger_delta; reflexivity|]. split; [intros i j; rewrite stronger_mu; reflexivity|]. split; [exact S|]. split; [exact D|].
  split; [intros obs; apply functional_extensionality; intros j; apply functional_extensionality; intros k; unfold elasticities; change (var0 (stronger c M)) with (var0 M); rewrite D0; reflexivity|].
  split; [exact CC|]. split; [intros solve old new obs costs; unfold compute_approximate_prices; destruct costs; rewrite ?CC, !EE; reflexivity|].
  split; [intros own costs; apply functional_extensionality; intros j; unfold price_contraction, zeta; rewrite S, L, G; reflexivity|].
  apply functional_extensionality. intros j. unfold price_weights. rewrite L. reflexivity.
Qed.
Print Assumptions C162_normalisation.

(** So mean utilities that give shares under one scale give, multiplied, the same shares under another, if other utilities are multiplied
    too, with any choice sets and eliminated or inside goods. *)
Theorem C162_mean_utilities :
  forall c m ch safe delta mu, 0 < c -> eps_scale m <> 0 ->
  probabilities_linear (with_scale (c * eps_scale m) m) ch safe (fun j => c * delta j) (fun j => c * mu j) = probabilities_linear m ch safe delta mu /\
  forall shares j, closed_form_delta (with_scale (c * eps_scale m) m) shares j = c * closed_form_delta m shares j.
Proof.
  intros c m ch safe delta mu C E. split; [apply stronger_probabilities; [lra|exact E]|].
  intros shares j. unfold closed_form_delta. cbn [eps_scale with_scale mH mJ]. change (rho (with_scale (c * eps_scale m) m) j) with (rho m j).
  change (gsum (with_scale (c * eps_scale m) m) shares (gid (with_scale (c * eps_scale m) m) j)) with (gsum m shares (gid m j)).
  set (d := if Nat.eqb (mH m) 0 then _ else _).
  assert (X : forall s, (if Req_EM_T s 1 then d else d * s) = d * s) by (intros s; destruct (Req_EM_T s 1) as [-> |]; ring).
  rewrite !X. ring.
Qed.
Print Assumptions C162_mean_utilities.

(** Consumer surplus is different.  It is proportional to the scale, so it vanishes as the scale goes to zero, although what the best option
    is worth does not, and the expected highest utility, which surplus is about, does approach it. *)
Theorem C162_surplus :
  (forall M avail mask x i e, 0 < e ->
    individual_surplus (with_scale_full e M) avail mask x i = e * individual_surplus (with_scale_full 1 M) avail mask x i) /\
  (forall M avail mask x i, tends_to (fun e => individual_surplus (with_scale_full e M) avail mask x i) 0) /\
  (forall J V e, 0 < e -> Rabs (expected_max J all_goods e V - highest J V) <= e * ln (INR J + 1)).
Proof.
  split; [exact surplus_proportional|]. split; [|exact expected_max_near].
  intros M avail mask x i err P. set (s := individual_surplus (with_scale_full 1 M) avail mask x i).
  assert (A := Rabs_pos s). exists (err / (Rabs s + 1)). assert (Q : 0 < err / (Rabs s + 1)) by (apply Rmult_lt_0_compat; [exact P|apply Rinv_0_lt_compat; lra]).
  split; [exact Q|]. intros e [E1 E2]. rewrite (surplus_proportional M avail mask x i e E1). fold s. rewrite Rminus_0_r, Rabs_mult, (Rabs_right e) by lra.
  apply (Rmult_lt_compat_r (Rabs s + 1)) in E2; [|lra]. replace (err / (Rabs s + 1) * (Rabs s + 1)) with err in E2 by (field; lra). nra.
Qed.
Print Assumptions C162_surplus.

(** Surplus in units of money does not approach that of the pure characteristics model. *)
Theorem C162_surplus_limit_refuted :
  ~ (forall M a i, valid_market (fm M) -> (forall y, good_columns M y) -> mH (fm M) = 0%nat -> 0 < a ->
     no_income_effects (mJ (fm M)) (price_utility M i) a ->
     tends_to (fun e => individual_surplus (with_scale_full e M) (fun _ => None) None (var0 M) i) (highest (mJ (fm M)) (price_utility M i (var0 M)) / a)).
Proof.
  intros H. specialize (H (scaled_market 1) 1 0%nat (scaled_valid 1 ltac:(lra)) (scaled_good 1) eq_refl ltac:(lra) (scaled_income 1 0)).
  assert (L4 : 0 < ln 4) by (rewrite <- ln_1; apply ln_increasing; lra).
  assert (Hh : highest (mJ (fm (scaled_market 1))) (price_utility (scaled_market 1) 0 (var0 (scaled_market 1))) / 1 = ln 4).
  { unfold highest. cbn [mJ fm scaled_market seq map fold_right]. rewrite scaled_utility. cbn [var0 scaled_market]. rewrite Rminus_0_r, Rmax_left by lra. field. }
  rewrite Hh in H. destruct (H (ln 4 / 2) ltac:(lra)) as [e0 [E0 A]]. destruct (proj1 (proj2 C162_surplus) (scaled_market 1) (fun _ => None) None (var0 (scaled_market 1)) 0%nat (ln 4 / 2) ltac:(lra)) as [e1 [E1 B]].
  assert (M1 := Rmin_l e0 e1). assert (M2 := Rmin_r e0 e1). assert (M0 : 0 < Rmin e0 e1) by (apply Rmin_case; assumption).
  specialize (A (Rmin e0 e1 / 2) ltac:(lra)). specialize (B (Rmin e0 e1 / 2) ltac:(lra)). rewrite Rminus_0_r in B.
  apply Rabs_def2 in A. apply Rabs_def2 in B. lra.
Qed.
Print Assumptions C162_surplus_limit_refuted.

(** Nor is it unchanged when all preferences are multiplied, unlike everything else. *)
Theorem C162_surplus_normalisation_refuted :
  ~ (forall c M i, 0 < c -> valid_market (fm M) -> (forall y, good_columns M y) -> mH (fm M) = 0%nat ->
     individual_surplus (stronger c M) (fun _ => None) None (var0 M) i = individual_surplus M (fun _ => None) None (var0 M) i).
Proof.
  intros H. specialize (H 2 (scaled_market 1) 0%nat ltac:(lra) (scaled_valid 1 ltac:(lra)) (scaled_good 1) eq_refl).
  change (var0 (scaled_market 1)) with (fun _ : nat => 0) in H. rewrite scaled_surplus in H by lra. unfold individual_surplus in H.
  change (None (A := nat -> R)) with (option_map (fun (b : nat -> bool) j => indR (b j)) None) in H.
  assert (V2 : valid_market (fm (stronger 2 (scaled_market 1)))) by (apply (scale_valid (2 * 1)); [lra|reflexivity|exact (scaled_valid 1 ltac:(lra))]).
  rewrite surplus_numerator_exact in H by exact V2. rewrite surplus_weights_plain in H by reflexivity.
  rewrite stronger_derivatives in H by (cbn; lra). rewrite stronger_delta, stronger_mu in H.
  assert (EU : utility_derivatives (scaled_market 1) false (var0 (stronger 2 (scaled_market 1))) 0 0 = - (1)).
  { unfold utility_derivatives. rewrite eps_div. simpl. field. }
  rewrite EU in H. change (mJ (fm (stronger 2 (scaled_market 1)))) with 1%nat in H. cbn [sumn] in H.
  change (included None None None 0) with true in H. cbv iota in H.
  rewrite <- Rmult_plus_distr_l in H.
  change (update_delta (scaled_market 1) (fun _ => 0) 0 + update_mu (scaled_market 1) (fun _ => 0) 0 0) with (price_utility (scaled_market 1) 0 (fun _ => 0) 0) in H.
  rewrite scaled_utility, Rminus_0_r in H. replace (2 * ln 4) with (ln 4 + ln 4) in H by ring. rewrite exp_plus, exp_ln in H by lra.
  assert (L : ln 5 < ln (1 + (0 + 4 * 4))) by (apply ln_increasing; lra). rewrite Rmult_1_l in H. unfold Rdiv in H. rewrite Ropp_involutive, Rinv_1 in H. lra.
Qed.
Print Assumptions C162_surplus_normalisation_refuted.

(** One product worth log 4: its share tends to one, all tastes can be doubled, and surplus is log 5 times the scale. *)
Example C162_applies :
  valid_market (fm (scaled_market 1)) /\ gap 1 (fun _ => ln 4) (ln 4) /\ pure_choice 1 (fun _ => ln 4) 0 = 1 /\
  shares_at (stronger 2 (scaled_market 1)) (fun _ => 0) = shares_at (scaled_market 1) (fun _ => 0) /\
  individual_surplus (with_scale_full (/ 10) (scaled_market 1)) (fun _ => None) None (fun _ => 0) 0 = / 10 * ln 5.
Proof.
  assert (L4 : 0 < ln 4) by (rewrite <- ln_1; apply ln_increasing; lra).
  assert (Hh : highest 1 (fun _ => ln 4) = ln 4) by (unfold highest; cbn [seq map fold_right]; apply Rmax_left; lra).
  split; [apply scaled_valid; lra|]. split; [unfold gap; rewrite Hh; split; [right; lra|left; reflexivity]|].
  split; [unfold pure_choice, how_many, is_highest; cbn [sumn]; rewrite !Hh; destruct (Req_EM_T 0 (ln 4)); [lra|]; destruct (Req_EM_T (ln 4) (ln 4)); [field|congruence]|].
  split; [exact (proj1 (proj2 (proj2 (C162_normalisation 2 (scaled_market 1) (fun _ => 0) ltac:(lra) ltac:(cbn; lra)))))|].
  rewrite surplus_proportional by lra. change (with_scale_full 1 (scaled_market 1)) with (scaled_market 1). rewrite scaled_surplus by lra. ring.
Qed.
