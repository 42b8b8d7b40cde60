(** A concrete market for theorems about realizations: that of GradWitness with log costs, in which agents' tastes differ so that
    markups depend on sigma. *)
From Coq Require Import Reals List Bool Arith Lra Lia FunctionalExtensionality.
From Verif Require Import ProgressModel ProgressSpec ProgressProofs Base DemandSpec DemandModel DemandProofs DemandShares DemandDeriv SupplyModel SupplySpec SupplyProofs
  DerivModel DerivMore MicroModel NestModel GradModel GradSpec GradProofs GradWitness EndoModel EndoSpec EndoProofs FltModel
  ExpectModel ExpectSpec ExpectProofs.
Import ListNotations.
Local Open Scope R_scope.

Definition wx_routine (f : (nat -> R) -> nat -> R) (x : nat -> R) : (nat -> R) * bool := (x, true).
Definition wx_supply (t : costs_type) : supply := mk_supply 1 (fun _ => ex_columns 0) (fun _ => 5) t.
Definition wx_point (s : R) : point :=
  mk_point (fun _ _ => s) (fun _ _ => 0) (fun _ => / 2) (fun k => if Nat.eqb k 0 then 0 else - (1)) (fun _ => 5).
Definition wx_sigma : parameter := Nonlinear (SigmaParameter 0 0).

Section Given.
  Variables (s : R) (t : costs_type) (tilde : nat -> R) (source : price_source) (constant : bool).
  Hypothesis Hsource : fst (realized_prices wx_routine ex_market (wx_supply t) (wx_point s) (fun _ => 0) tilde (fun _ => 10) source constant) = fun _ => 10.
  Let d' := realized_delta wx_routine ex_market (wx_supply t) (wx_point s) (fun _ => 0) tilde (fun _ => 10) source constant.
  Let e' := realized_market wx_routine ex_market (wx_supply t) (wx_point s) (fun _ => 0) tilde (fun _ => 10) source constant.

  Lemma wx_delta : d' = fun _ => 0.
  Proof using Hsource.
    unfold d', realized_delta. rewrite Hsource. apply functional_extensionality. intro j. cbn [fst realized_prices]. unfold update_delta. cbn. ring.
  Qed.
  Lemma wx_market v : market_of e' v (fun _ => 0) = market_of ex_market v (fun _ => 0).
  Proof using Hsource. unfold e', realized_market. rewrite Hsource. reflexivity. Qed.
  Lemma wx_mu v : mu_at e' v = mu_at ex_market v.
  Proof using Hsource. unfold e', realized_market. rewrite Hsource. reflexivity. Qed.
  Lemma wx_var0 : var0 (e_market e') = fun _ => 10.
  Proof using Hsource. unfold e', realized_market. rewrite Hsource. reflexivity. Qed.
  Lemma wx_regular : regular ex_market (wx_point s).
  Proof using. apply ex_regular; cbn; lra. Qed.
  Lemma wx_share : e_shares e' O = / 2.
  Proof using Hsource.
    assert (H := realized_matched wx_routine ex_market (wx_supply t) (wx_point s) (fun _ => 0) tilde (fun _ => 10) source constant wx_regular O Nat.lt_0_1).
    fold e' d' in H. cbv zeta in H. rewrite wx_delta in H. rewrite <- H, wx_mu, wx_market.
    exact (ex_matched (wx_point s) ltac:(cbn; lra) O Nat.lt_0_1).
  Qed.
  Lemma wx_matched v : v_rho v O < 1 -> matched e' v (fun _ => 0).
  Proof using Hsource.
    intros Hr j Hj. cbn in Hj. assert (j = O) by lia. subst j. cbv zeta. rewrite wx_mu, wx_market, wx_share.
    exact (ex_matched v Hr O Nat.lt_0_1).
  Qed.
  Lemma wx_capital v : v_rho v O < 1 ->
    capital_delta (market_of e' v (fun _ => 0)) (e_ownership e') (var0 (e_market e')) 0 0 = - v_beta v 1 * (L (v_sigma v O O) * (1 - L (v_sigma v O O))).
  Proof using Hsource. intro Hr. rewrite wx_market, wx_var0. exact (ex_capital_delta v Hr). Qed.
  Lemma wx_flag v keep : v_rho v O < 1 -> v_beta v 1%nat <> 0 -> snd (eta_of ex_solve e' v (fun _ => 0) ex_inverse keep) = false.
  Proof using Hsource.
    intros Hr Hb. assert (K := wx_capital v Hr). assert (P := L_pos (v_sigma v O O)).
    assert (N : capital_delta (market_of e' v (fun _ => 0)) (e_ownership e') (var0 (e_market e')) 0 0 <> 0).
    { rewrite K. apply Rmult_integral_contrapositive_currified; [lra|apply Rmult_integral_contrapositive_currified; lra]. }
    destruct keep; unfold eta_of, kept_inverse, compute_eta, ex_inverse, ex_solve; cbn [snd]; unfold MicroModel.reqb;
      change (Nat.eqb (mJ (fm (market_of e' v (fun _ => 0)))) 1) with true; cbn [andb];
      (destruct (Req_EM_T _ 0) as [Z|Z]; [exfalso; apply N; exact Z|reflexivity]).
  Qed.
  Lemma wx_eta v keep : v_rho v O < 1 -> v_beta v 1%nat = - (1) ->
    fst (eta_of ex_solve e' v (fun _ => 0) ex_inverse keep) O = (exp (v_sigma v O O) + 2 + exp (- v_sigma v O O)) / 2.
  Proof using Hsource.
    intros Hr Hb. assert (K := wx_capital v Hr). rewrite Hb in K.
    assert (E : fst (eta_of ex_solve e' v (fun _ => 0) ex_inverse keep) O = / 2 / (L (v_sigma v O O) * (1 - L (v_sigma v O O)))).
    { unfold eta_of, kept_inverse, compute_eta, ex_inverse, ex_solve. assert (P := L_pos (v_sigma v O O)).
      destruct keep; cbn [fst]; [change (mJ (fm (market_of e' v (fun _ => 0)))) with 1%nat; cbn [sumn]|];
        change (var0 (market_of e' v (fun _ => 0))) with (var0 (e_market e')); rewrite K, wx_share; field; repeat split; nra. }
    rewrite E. unfold L. rewrite exp_Ropp. assert (X := exp_pos (v_sigma v O O)). field. repeat split; lra.
  Qed.
  Lemma wx_column p : snd (xi_column ex_solve e' (wx_point s) (fun _ => 0) p) = false.
  Proof using Hsource.
    set (v := wx_point s). assert (Hr : v_rho v O < 1) by (cbn; lra).
    unfold xi_column, xi_by_theta, ex_solve. cbn [snd].
    change (Nat.eqb (mJ (fm (market_of e' v (fun _ => 0)))) 1) with true. cbn [andb].
    rewrite wx_mu, wx_market.
    assert (Q : shares_by_xi_jacobian (fm (market_of ex_market v (fun _ => 0))) (fI (market_of ex_market v (fun _ => 0)))
      (fw (market_of ex_market v (fun _ => 0))) (e_shares e')
      (probs (fm (market_of ex_market v (fun _ => 0))) (fun _ => 0) (mu_at ex_market v))
      (conds (fm (market_of ex_market v (fun _ => 0))) (fun _ => 0) (mu_at ex_market v)) 0 0 = L s * (1 - L s)).
    { destruct (ex_prob v (fun _ => 0) 0 Hr eq_refl ltac:(lia)) as [P0 C0].
      destruct (ex_prob v (fun _ => 0) 1 Hr eq_refl ltac:(lia)) as [P1 C1].
      unfold shares_by_xi_jacobian. change (fI (market_of ex_market v (fun _ => 0))) with 2%nat. cbn [sumn].
      rewrite P0, P1, C0, C1, wx_share. cbn. destruct (Req_EM_T 1 1) as [_|]; [|lra]. unfold DemandModel.rho, membership. cbn. field. }
    unfold MicroModel.reqb. destruct (Req_EM_T _ 0) as [Z|Z]; [|reflexivity]. rewrite Q in Z. assert (P := L_pos s). nra.
  Qed.
  Lemma wx_eta_column : eta_column ex_solve e' (wx_point s) (fun _ => 0) ex_inverse wx_sigma O = (exp s - exp (- s)) / 2.
  Proof using Hsource.
    assert (D : derivable_pt_lim (fun y => fst (eta_of ex_solve e' (moved (wx_point s) wx_sigma y) (fun _ => 0) ex_inverse true) O)
      (value_at (wx_point s) wx_sigma) (eta_column ex_solve e' (wx_point s) (fun _ => 0) ex_inverse wx_sigma O)).
    { apply eta_moves with (ec := ex_economy) (p := wx_sigma) (dpath := fun _ _ => 0) (r := 1) (keep := true).
      - exact ex_solve_exact.
      - exact (realized_regular wx_routine ex_market (wx_supply t) (wx_point s) (fun _ => 0) tilde (fun _ => 10) source constant wx_regular).
      - cbn. lia.
      - lra.
      - intros y _. apply wx_matched. cbn. lra.
      - apply wx_column.
      - exact ex_inverse_exact.
      - intros y _. apply wx_flag; cbn; lra.
      - exact (wx_flag (wx_point s) true ltac:(cbn; lra) ltac:(cbn; lra)).
      - cbn. lia. }
    cbn [value_at wx_sigma np_value wx_point v_sigma v_pi] in D.
    assert (D2 : derivable_pt_lim (fun y => (exp y + 2 + exp (- y)) / 2) s ((exp s - exp (- s)) / 2)).
    { apply dlim_ext with (fun y => / 2 * (exp y + 2 + exp (- y))); [intro y; field|].
      eapply dlim_eq; [|apply dlim_scal; apply (derivable_pt_lim_plus (fun y => exp y + 2) (fun y => exp (- y)) s (exp s + 0) (exp (- s) * - (1)))].
      - field.
      - apply (derivable_pt_lim_plus exp (fun _ => 2)); [apply derivable_pt_lim_exp|apply derivable_pt_lim_const].
      - apply (derivable_pt_lim_comp Ropp exp s (- (1)) (exp (- s))); [apply (derivable_pt_lim_opp id), derivable_pt_lim_id|apply derivable_pt_lim_exp]. }
    eapply uniqueness_limite; [exact D|].
    apply dlim_ext with (fun y => (exp y + 2 + exp (- y)) / 2); [|exact D2].
    intro y. symmetry. rewrite wx_eta by (cbn; lra). cbn. reflexivity.
  Qed.
End Given.

(** Sigma is zero, so agents agree: their probabilities are L d. *)
Section Agreed.
  Variable d : R.
  Let M := market_of ex_market (wx_point 0) (fun _ => d).
  Let x : nat -> R := fun _ => 10.
  Lemma ag_valid : valid_market (fm M).
  Proof using. exact (nest_one_valid (/ 2) ltac:(lra)). Qed.
  Lemma ag_delta : update_delta M x = fun _ => d.
  Proof using. apply functional_extensionality. intro j. unfold update_delta. cbn. unfold x. ring. Qed.
  Lemma ag_mu i j : update_mu M x i j = 0.
  Proof using. unfold update_mu, compute_mu. cbn. unfold random_coefficients. cbn. ring. Qed.
  Lemma ag_probs i : probs (fm M) (update_delta M x) (update_mu M x) i 0 = L d /\ conds (fm M) (update_delta M x) (update_mu M x) i 0 = 1.
  Proof using.
    destruct (nest_one_probs (/ 2) (update_delta M x) (update_mu M x) i ltac:(lra)) as [P C].
    rewrite ag_mu, ag_delta, Rplus_0_r in P. rewrite ag_delta in C. rewrite ag_delta. split; [exact P|exact C].
  Qed.
  Lemma ag_shares j : (j < 1)%nat -> shares_at M x j = L d.
  Proof using.
    intro H. assert (j = O) by lia. subst j. unfold shares_at. change (fI M) with 2%nat. cbn [sumn].
    rewrite (proj1 (ag_probs 0)), (proj1 (ag_probs 1)). cbn. field.
  Qed.
  Lemma ag_utility i j : utility_derivatives M false x i j = - (1).
  Proof using. unfold utility_derivatives. cbn. destruct (Req_EM_T 1 1) as [_|]; [|lra]. ring. Qed.
  Lemma ag_jacobian : shares_jacobian M x 0 0 = - (L d * (1 - L d)).
  Proof using.
    unfold shares_jacobian, jacobian_of, capital_lamda, capital_gamma. change (fI M) with 2%nat. change (mH (fm M)) with 1%nat. cbn [Nat.eqb sumn].
    destruct (ag_probs 0) as [P0 C0]. destruct (ag_probs 1) as [P1 C1]. rewrite P0, P1, C0, C1, !ag_utility.
    unfold DemandModel.rho, membership. cbn. field.
  Qed.
  Lemma ag_competition : competition M (e_ownership ex_market) x.
  Proof using.
    constructor.
    - split; [cbn; lia|]. intros. cbn. lra.
    - intros. rewrite ag_utility. lra.
    - intros. cbn. lra.
    - intros. reflexivity.
    - intros. cbn. lra.
  Qed.
  (** Prices of ten are equilibrium prices if costs are lower by the markup. *)
  Lemma ag_fixed S tilde : exponentiated S tilde O = 10 - / (1 - L d) ->
    fixed (products ex_market) (endogenous_contraction true M (e_ownership ex_market) S (e_shares ex_market) (exponentiated S tilde)) x.
  Proof using.
    intro HC. unfold fixed, endogenous_contraction.
    change (costs_given true M S (e_shares ex_market) (exponentiated S tilde) x) with (exponentiated S tilde).
    refine (proj2 (zeta_fixed_iff M (e_ownership ex_market) (exponentiated S tilde) x _ _ _) _); [intros a b _ _; reflexivity|intros a _; reflexivity| |].
    - intros k Hk. apply Rlt_not_eq. apply lamda_negative; [exact ag_valid|exact Hk|cbn; lia|intros; cbn; lra|]. intros. rewrite ag_utility. lra.
    - intros j Hj. assert (j = O) by (cbn in Hj; lia). subst j. change (mJ (fm M)) with 1%nat. cbn [sumn].
      rewrite ag_shares, ag_jacobian, HC by lia. cbn. unfold x. assert (P := L_pos d). field. lra.
  Qed.
End Agreed.

Lemma L_zero : L 0 = / 2.
Proof. unfold L. rewrite exp_0. lra. Qed.
Lemma L_ln3 : L (ln 3) = 3 / 4.
Proof. unfold L. rewrite exp_ln by lra. lra. Qed.

(** Log costs and given prices of ten. *)
Lemma given_prices_fail (S := wx_supply LogCosts) (v := wx_point 1) (tilde := fun _ : nat => 0) (source := GivenPrices (fun _ => 10)) :
  let x := fst (realized_prices wx_routine ex_market S v (fun _ => 0) tilde (fun _ => 10) source true) in
  let e' := realized_market wx_routine ex_market S v (fun _ => 0) tilde (fun _ => 10) source true in
  let d' := realized_delta wx_routine ex_market S v (fun _ => 0) tilde (fun _ => 10) source true in
  exact_solve ex_solve /\ exact_inverse ex_inverse /\ regular ex_market v /\ in_theta ex_economy ex_market v wx_sigma /\ 0 < 1 /\
  (fun _ : nat => 0) = d' /\
  (forall y, Rabs (y - value_at v wx_sigma) < 1 -> matched e' (moved v wx_sigma y) (fun _ => 0)) /\
  snd (xi_column ex_solve e' v d' wx_sigma) = false /\
  (forall y, Rabs (y - value_at v wx_sigma) < 1 -> snd (eta_of ex_solve e' (moved v wx_sigma y) (fun _ => 0) ex_inverse true) = false) /\
  snd (kept_inverse e' v d' ex_inverse) = false /\
  price_source_of (Some (true, fun _ => 10)) S NoIteration = Some source /\
  (forall j, (j < products ex_market)%nat -> fst (eta_of ex_solve e' v d' ex_inverse true) j < x j) /\
  ~ (forall j, (j < products ex_market)%nat ->
     derivable_pt_lim (fun y => tilde_costs_at ex_solve e' (moved v wx_sigma y) (fun _ => 0) ex_inverse (logged S) true j
       - sumn (ec_K3 ex_economy) (fun k => if ec_eliminated_gamma ex_economy k then 0 else e_X3 e' j k * v_gamma (moved v wx_sigma y) k))
       (value_at v wx_sigma) (realized_omega_column wx_routine ex_market S v (fun _ => 0) tilde (fun _ => 10) source true ex_solve ex_inverse wx_sigma j)).
Proof.
  intros x e' d'.
  assert (HX : fst (realized_prices wx_routine ex_market S v (fun _ => 0) tilde (fun _ => 10) source true) = fun _ => 10) by reflexivity.
  assert (Hd : d' = fun _ => 0) by exact (wx_delta 1 LogCosts tilde source true HX).
  assert (Hm : forall y, Rabs (y - value_at v wx_sigma) < 1 -> matched e' (moved v wx_sigma y) (fun _ => 0)).
  { intros y _. apply (wx_matched 1 LogCosts tilde source true HX). unfold v; cbn. lra. }
  assert (Hx : snd (xi_column ex_solve e' v d' wx_sigma) = false) by (rewrite Hd; exact (wx_column 1 LogCosts tilde source true HX wx_sigma)).
  assert (He : forall y, Rabs (y - value_at v wx_sigma) < 1 -> snd (eta_of ex_solve e' (moved v wx_sigma y) (fun _ => 0) ex_inverse true) = false).
  { intros y _. apply (wx_flag 1 LogCosts tilde source true HX); unfold v; cbn; lra. }
  assert (Hk : snd (kept_inverse e' v d' ex_inverse) = false).
  { rewrite Hd. exact (wx_flag 1 LogCosts tilde source true HX v true ltac:(unfold v; cbn; lra) ltac:(unfold v; cbn; lra)). }
  assert (Heta : fst (eta_of ex_solve e' v d' ex_inverse true) O = (exp 1 + 2 + exp (- (1))) / 2).
  { rewrite Hd. exact (wx_eta 1 LogCosts tilde source true HX v true ltac:(unfold v; cbn; lra) eq_refl). }
  assert (B1 : 2 < exp 1) by (assert (Q := exp_ineq1 1 ltac:(lra)); lra).
  assert (B2 : exp 1 <= 3) by exact exp_le_3.
  assert (B3 : 0 < exp (- (1)) < 1).
  { split; [apply exp_pos|]. assert (Q := exp_increasing (- (1)) 0 ltac:(lra)). rewrite exp_0 in Q. exact Q. }
  split; [exact ex_solve_exact|]. split; [exact ex_inverse_exact|]. split; [exact (wx_regular 1)|]. split; [cbn; lia|]. split; [lra|].
  split; [symmetry; exact Hd|]. split; [exact Hm|]. split; [exact Hx|]. split; [exact He|]. split; [exact Hk|]. split; [reflexivity|].
  assert (Hlt : forall j, (j < products ex_market)%nat -> fst (eta_of ex_solve e' v d' ex_inverse true) j < x j).
  { intros j Hj. assert (j = O) by (cbn in Hj; lia). subst j. rewrite Heta. change (x O) with 10. lra. }
  split; [exact Hlt|].
  intro H. specialize (H O Nat.lt_0_1).
  assert (D : derivable_pt_lim (fun y => tilde_costs_at ex_solve e' (moved v wx_sigma y) (fun _ => 0) ex_inverse true true O
      - sumn (ec_K3 ex_economy) (fun k => if ec_eliminated_gamma ex_economy k then 0 else e_X3 e' O k * v_gamma (moved v wx_sigma y) k))
      (value_at v wx_sigma) (omega_column ex_solve e' v (fun _ => 0) ex_inverse true wx_sigma O)).
  { apply (omega_moves ex_solve ex_economy e' v wx_sigma (fun _ _ => 0) 1 ex_solve_exact
      (realized_regular wx_routine ex_market S v (fun _ => 0) tilde (fun _ => 10) source true (wx_regular 1))
      ltac:(cbn; lia) ltac:(lra) Hm ltac:(rewrite <- Hd; exact Hx) ex_inverse true ex_inverse_exact He ltac:(rewrite <- Hd; exact Hk) true O Nat.lt_0_1).
    intros _. rewrite <- Hd. exact (Hlt O Nat.lt_0_1). }
  assert (U := uniqueness_limite _ _ _ _ D H).
  assert (C0 : omega_column ex_solve e' v (fun _ => 0) ex_inverse true wx_sigma O
    = - eta_column ex_solve e' v (fun _ => 0) ex_inverse wx_sigma O / exp (ln (10 - (exp 1 + 2 + exp (- (1))) / 2))).
  { rewrite <- Heta, Hd. reflexivity. }
  assert (C1 : realized_omega_column wx_routine ex_market S v (fun _ => 0) tilde (fun _ => 10) source true ex_solve ex_inverse wx_sigma O
    = - eta_column ex_solve e' v (fun _ => 0) ex_inverse wx_sigma O / exp 0).
  { transitivity (- eta_column ex_solve e' v d' ex_inverse wx_sigma O / exp 0); [reflexivity|]. rewrite Hd. reflexivity. }
  assert (C2 : eta_column ex_solve e' v (fun _ => 0) ex_inverse wx_sigma O = (exp 1 - exp (- (1))) / 2)
    by exact (wx_eta_column 1 LogCosts tilde source true HX).
  rewrite C0, C1, C2, exp_0, exp_ln in U by lra. set (a := (exp 1 - exp (- (1))) / 2) in *. set (b := 10 - (exp 1 + 2 + exp (- (1))) / 2) in *.
  assert (Pa : 0 < a) by (unfold a; lra). assert (Pb : 1 < b) by (unfold b; lra).
  assert (U2 : - a = - a / 1 * b) by (rewrite <- U; field; lra). nra.
Qed.

(** Equilibrium prices of ten with log costs of ln 8. *)
Lemma equilibrium_applies (S := wx_supply LogCosts) (v := wx_point 0) (tilde := fun _ : nat => ln 8) :
  let x := fst (realized_prices wx_routine ex_market S v (fun _ => 0) tilde (fun _ => 10) EquilibriumPrices true) in
  let e' := realized_market wx_routine ex_market S v (fun _ => 0) tilde (fun _ => 10) EquilibriumPrices true in
  let d' := realized_delta wx_routine ex_market S v (fun _ => 0) tilde (fun _ => 10) EquilibriumPrices true in
  x = (fun _ => 10) /\ exact_solve ex_solve /\ exact_inverse ex_inverse /\ regular ex_market v /\ in_theta ex_economy ex_market v wx_sigma /\
  (fun _ : nat => 0) = d' /\ (forall y, Rabs (y - 0) < 1 -> matched e' (moved v wx_sigma y) (fun _ => 0)) /\
  snd (xi_column ex_solve e' v d' wx_sigma) = false /\
  (forall y, Rabs (y - 0) < 1 -> snd (eta_of ex_solve e' (moved v wx_sigma y) (fun _ => 0) ex_inverse true) = false) /\
  snd (kept_inverse e' v d' ex_inverse) = false /\
  price_source_of None S NoIteration = Some EquilibriumPrices /\
  valid_market (fm (market_of ex_market v (fun _ => 0))) /\ competition (market_of ex_market v (fun _ => 0)) (e_ownership ex_market) x /\
  fixed (products ex_market) (endogenous_contraction true (market_of ex_market v (fun _ => 0)) (e_ownership ex_market) S (e_shares ex_market)
    (exponentiated S tilde)) x /\
  honest (fK1 (e_market ex_market)) (fX1 (e_market ex_market)) /\
  explained (products ex_market) (fK1 (e_market ex_market)) (characteristics (fX1 (e_market ex_market)) (var0 (e_market ex_market))) (v_beta v)
    (fun _ => 10) (fun _ => 0).
Proof.
  intros x e' d'. set (source := EquilibriumPrices).
  assert (HX : fst (realized_prices wx_routine ex_market S v (fun _ => 0) tilde (fun _ => 10) source true) = fun _ => 10) by reflexivity.
  assert (Hd : d' = fun _ => 0) by exact (wx_delta 0 LogCosts tilde source true HX).
  split; [exact HX|]. split; [exact ex_solve_exact|]. split; [exact ex_inverse_exact|]. split; [exact (wx_regular 0)|]. split; [cbn; lia|].
  split; [symmetry; exact Hd|].
  split; [intros y _; apply (wx_matched 0 LogCosts tilde source true HX); unfold v; cbn; lra|].
  split; [rewrite Hd; exact (wx_column 0 LogCosts tilde source true HX wx_sigma)|].
  split; [intros y _; apply (wx_flag 0 LogCosts tilde source true HX); unfold v; cbn; lra|].
  split; [rewrite Hd; exact (wx_flag 0 LogCosts tilde source true HX v true ltac:(unfold v; cbn; lra) ltac:(unfold v; cbn; lra))|].
  split; [reflexivity|]. split; [exact (ag_valid 0)|]. split; [exact (ag_competition 0)|].
  split; [|split].
  - apply (ag_fixed 0 S tilde). unfold exponentiated. cbn. unfold tilde. rewrite exp_ln, L_zero by lra. lra.
  - intros k j a b Hk. destruct k as [|[|k]]; cbn in *; [reflexivity|discriminate|lia].
  - intros j Hj. unfold characteristics, v. cbn. ring.
Qed.

(** Shares in X3, with mean utilities for which shares are 3/4 instead of 1/2. *)
Definition wx_shares : supply := mk_supply 1 (fun _ => ex_columns 1) (fun _ => 1) LinearCosts.
Lemma wx_realized_shares routine tilde source constant : fst (realized_prices routine ex_market wx_shares (wx_point 0) (fun _ => ln 3) tilde (fun _ => 10) source constant) = (fun _ => 10) ->
  realized_shares routine ex_market wx_shares (wx_point 0) (fun _ => ln 3) tilde (fun _ => 10) source constant O = 3 / 4.
Proof. intro H. unfold realized_shares. rewrite H. rewrite <- L_ln3. apply ag_shares. lia. Qed.

Lemma costs_do_not_adjust :
  exists routine e S v delta tilde fitted source draw,
  price_source_of None S NoIteration = Some source /\ shares_in S = true /\ regular e v /\ honest (sK3 S) (sX3 S) /\
  explained (products e) (sK3 S) (characteristics (sX3 S) (e_shares e)) (sgamma S) draw tilde /\
  (forall j, (j < products e)%nat -> realized_shares routine e S v delta tilde fitted source false j <> e_shares e j) /\
  ~ explained (products e) (sK3 S) (characteristics (sX3 S) (realized_shares routine e S v delta tilde fitted source false)) (sgamma S) draw tilde.
Proof.
  exists wx_routine, ex_market, wx_shares, (wx_point 0), (fun _ => ln 3), (fun _ => 6), (fun _ => 10), FittedPrices, (fun _ => 11 / 2).
  assert (E := wx_realized_shares wx_routine (fun _ => 6) FittedPrices false eq_refl).
  split; [reflexivity|]. split; [reflexivity|]. split; [exact (wx_regular 0)|]. split; [intros k j a b _ U; discriminate U|].
  split; [intros j _; unfold characteristics; cbn; field|].
  split; [intros j Hj; assert (j = O) by (cbn in Hj; lia); subst j; rewrite E; cbn; lra|].
  intro H. specialize (H O Nat.lt_0_1). unfold characteristics in H. cbn [sK3 wx_shares sumn] in H. rewrite E in H. cbn in H. lra.
Qed.

Lemma bootstrapped_errors_differ :
  exists routine e S v gamma delta estimate errors fitted source solve inverse keep,
  honest (sK3 S) (sX3 S) /\ exact_solve solve /\ exact_inverse inverse /\ regular e v /\
  bootstrap_source S (var0 (e_market e)) NoIteration = Some source /\
  let X3 := characteristics (sX3 S) (e_shares e) in
  let tilde := with_linear (sK3 S) X3 gamma (sgamma S) estimate in
  let x := fst (realized_prices routine e S v delta tilde fitted source true) in
  let e' := realized_market routine e S v delta tilde fitted source true in
  let d' := realized_delta routine e S v delta tilde fitted source true in
  let s' := realized_shares routine e S v delta tilde fitted source true in
  explained (products e) (sK3 S) X3 gamma errors estimate /\
  valid_market (fm (market_of e v delta)) /\ competition (market_of e v delta) (e_ownership e) x /\
  fixed (products e) (endogenous_contraction true (market_of e v delta) (e_ownership e) S (e_shares e) (exponentiated S tilde)) x /\
  snd (eta_of solve e' v d' inverse keep) = false /\
  ~ explained (products e) (sK3 S) (characteristics (sX3 S) s') (sgamma S) errors (tilde_costs_at solve e' v d' inverse (logged S) keep).
Proof.
  exists wx_routine, ex_market, wx_shares, (wx_point 0), (fun _ => 1), (fun _ => ln 3), (fun _ => 6), (fun _ => 11 / 2), (fun _ => 10), EquilibriumPrices,
    ex_solve, ex_inverse, false.
  assert (Hn : honest (sK3 wx_shares) (sX3 wx_shares)) by (intros k j a b _ U; discriminate U).
  split; [exact Hn|]. split; [exact ex_solve_exact|]. split; [exact ex_inverse_exact|]. split; [exact (wx_regular 0)|]. split; [reflexivity|].
  intros X3 tilde x e' d' s'.
  assert (Ht : tilde = fun _ => 6) by (apply functional_extensionality; intro j; unfold tilde, with_linear; cbn; ring).
  assert (X : explained (products ex_market) (sK3 wx_shares) X3 (fun _ => 1) (fun _ => 11 / 2) (fun _ => 6))
    by (intros j _; unfold X3, characteristics; cbn; field).
  assert (V := ag_valid (ln 3)). assert (C := ag_competition (ln 3)).
  assert (F : fixed (products ex_market) (endogenous_contraction true (market_of ex_market (wx_point 0) (fun _ => ln 3)) (e_ownership ex_market) wx_shares
    (e_shares ex_market) (exponentiated wx_shares tilde)) x).
  { apply (ag_fixed (ln 3) wx_shares tilde). rewrite Ht, L_ln3. cbn. lra. }
  assert (B : snd (eta_of ex_solve e' (wx_point 0) d' ex_inverse false) = false).
  { unfold eta_of, compute_eta, ex_solve. cbn [snd]. change (Nat.eqb (mJ (fm (market_of e' (wx_point 0) d'))) 1) with true. cbn [andb].
    unfold MicroModel.reqb. destruct (Req_EM_T _ 0) as [Z|Z]; [exfalso|reflexivity].
    change (market_of e' (wx_point 0) d') with (market_on (market_of ex_market (wx_point 0) (fun _ => ln 3)) (fun _ => 10) d') in Z.
    rewrite capital_delta_jacobian in Z. change (var0 (market_on (market_of ex_market (wx_point 0) (fun _ => ln 3)) (fun _ => 10) d')) with (fun _ : nat => 10) in Z.
    rewrite market_on_jacobian in Z by (try exact V; cbn; try lia; intros; reflexivity).
    rewrite ag_jacobian, L_ln3 in Z. cbn in Z. lra. }
  split; [exact X|]. split; [exact V|]. split; [exact C|]. split; [exact F|]. split; [exact B|].
  intro H. assert (E := wx_realized_shares wx_routine tilde EquilibriumPrices true eq_refl). fold s' in E.
  assert (T := realized_tilde wx_routine ex_market wx_shares (wx_point 0) (fun _ => ln 3) tilde (fun _ => 10) EquilibriumPrices true ex_solve ex_inverse
    ex_solve_exact ex_inverse_exact false V C F B Hn (fun _ => 11 / 2) ltac:(rewrite Ht; exact X) O Nat.lt_0_1).
  specialize (H O Nat.lt_0_1). fold e' d' in T. rewrite T in H. unfold characteristics in H. cbn [sK3 wx_shares sumn] in H. rewrite E in H. cbn in H. lra.
Qed.
