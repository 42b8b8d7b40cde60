(** A concrete economy for the gradient theorem: one market with one nested product and two agents who disagree about
    it, log costs, a micro moment, and one parameter of each kind in theta.  Mean utilities are zero whatever sigma,
    since the agents' tastes are symmetric. *)
From Coq Require Import Reals List Bool Arith Lra Lia.
From Verif Require Import ProgressModel ProgressSpec Base DemandSpec DemandModel DemandProofs DemandShares SupplyModel SupplyProofs
  DerivModel DerivMore MicroModel NestModel GradModel GradSpec GradProofs.
Import ListNotations.
Local Open Scope R_scope.

Definition L (u : R) : R := exp u / (1 + exp u).
Lemma L_pos u : 0 < L u < 1.
Proof.
  unfold L. assert (H := exp_pos u). split; [apply Rdiv_lt_0_compat; lra|].
  apply Rmult_lt_reg_r with (1 + exp u); [lra|]. unfold Rdiv. rewrite Rmult_assoc, Rinv_l by lra. lra.
Qed.
Lemma L_opp u : L (- u) = 1 - L u.
Proof. unfold L. rewrite exp_Ropp. assert (H := exp_pos u). field. lra. Qed.

Definition nest_one (r : R) : market := mk_market 1 1 (fun _ => O) false (fun _ => r) 1.
Lemma nest_one_valid r : r < 1 -> valid_market (nest_one r).
Proof. intro H. constructor; cbn; intros; try lia; try lra. Qed.
Lemma nest_one_probs r d mu i : r < 1 -> probs (nest_one r) d mu i 0 = L (d O + mu i O) /\ conds (nest_one r) d mu i 0 = 1.
Proof.
  intro H. assert (V := nest_one_valid r H).
  destruct (probabilities_spec (nest_one r) true true None None None d (mu i) V) as [_ P].
  destruct (P (Nat.neq_succ_0 O)) as [P1 [con [P2 P3]]]. rewrite <- full_choice_with in *.
  assert (W : within_group (mJ (nest_one r)) (gid (nest_one r)) (grho (nest_one r)) (included None None None) (utility (nest_one r) d (mu i)) 0 = 1).
  { unfold within_group, inclusive. cbn. assert (X := exp_pos (utility (nest_one r) d (mu i) O / (1 - r))).
    set (x := exp _) in *. rewrite Rplus_0_l. apply Rinv_r. lra. }
  split.
  - unfold probs. rewrite (P1 O Nat.lt_0_1). unfold nested. rewrite W. unfold group_share, group_weight, inclusive. cbn.
    rewrite !Rplus_0_l. unfold Rpower. rewrite ln_exp. unfold utility. cbn. unfold L.
    replace ((1 - r) * ((d O + mu i O) / 1 / (1 - r))) with (d O + mu i O) by (field; lra).
    assert (X := exp_pos (d O + mu i O)). field. lra.
  - unfold conds. rewrite P2. rewrite (P3 O Nat.lt_0_1). exact W.
Qed.

Definition ex_columns (k : nat) : column :=
  match k with O => mk_column false (fun _ _ => 1) (fun _ _ => 0) (fun _ _ => 0) | _ => mk_column true (fun _ x => x) (fun _ _ => 1) (fun _ _ => 0) end.
Definition ex_tastes : tastes :=
  mk_tastes 1 0 (fun _ => RCLinear) (fun i _ => if Nat.eqb i 0 then 1 else - (1)) (fun _ _ _ => 0) (fun _ _ => 1).
Definition ex_market : economy_market :=
  mk_economy_market
    (mk_full_market (nest_one 0) 2 (fun _ => / 2) 2 ex_columns (fun _ => 0) 1 (fun _ => ex_columns 0) (fun _ _ _ => 0) (fun _ => 10) (fun _ => 0) (fun _ _ => 1))
    ex_tastes (fun _ => O) (fun _ k => if Nat.eqb k 0 then 1 else 10) (fun _ _ => 1) (fun _ => / 2) (fun _ _ => 1).
Definition ex_survey : survey :=
  mk_survey (Two false) 1 2 (fun _ => / 2) (fun _ _ => 1) (fun i _ => if Nat.eqb i 0 then 1 else 0).
Definition ex_moment : micro_moment := mk_micro_moment [O] (3 / 4) (fun w => w O) (fun _ _ => 1).
Definition eqR (a b : nat) : R := if Nat.eqb a b then 1 else 0.
Definition ex_economy : economy :=
  mk_economy 1 (fun _ => ex_market) 1 (fun _ => (O, O)) true true 2 (fun k => Nat.eqb k 0) 1 (fun _ => false)
    (fun _ => [(O, ex_survey)]) [ex_moment] 2 1 (fun n _ => eqR n 0) eqR eqR (fun _ _ => 1) eqR true.
Definition ex_solve (J : nat) : solver := fun A b =>
  (fun _ => b O / A O O, if (Nat.eqb J 1 && negb (reqb (A O O) 0))%bool then false else true).
Definition ex_inverse (J : nat) (A : nat -> nat -> R) : (nat -> nat -> R) * bool :=
  (fun _ _ => / A O O, if (Nat.eqb J 1 && negb (reqb (A O O) 0))%bool then false else true).
Definition ex_point : point :=
  mk_point (fun _ _ => 0) (fun _ _ => 0) (fun _ => / 2) (fun k => if Nat.eqb k 0 then 0 else - (1)) (fun _ => 5).
Definition ex_theta (i : nat) : parameter :=
  match i with O => Nonlinear (SigmaParameter 0 0) | 1%nat => Rho 0 | 2%nat => Beta 1 | _ => Gamma 0 end.

Lemma ex_solve_exact : exact_solve ex_solve.
Proof.
  intros J A b. unfold ex_solve. cbn [fst snd]. destruct (Nat.eqb_spec J 1) as [->|]; cbn [andb]; [|discriminate].
  unfold reqb. destruct (Req_EM_T (A O O) 0) as [|N]; cbn [negb]; [discriminate|]. intros _ j Hj. assert (j = O) by lia. subst. cbn. field. exact N.
Qed.
Lemma ex_inverse_exact : exact_inverse ex_inverse.
Proof.
  intros J A. unfold ex_inverse. cbn [fst snd]. destruct (Nat.eqb_spec J 1) as [->|]; cbn [andb]; [|discriminate].
  unfold reqb. destruct (Req_EM_T (A O O) 0) as [|N]; cbn [negb]; [discriminate|]. intros _ j k Hj Hk.
  assert (j = O) by lia. assert (k = O) by lia. subst. cbn. split; field; exact N.
Qed.

(** Probabilities of the two agents. *)
Lemma ex_prob v d i : v_rho v O < 1 -> d O = 0 -> (i < 2)%nat ->
  probs (fm (market_of ex_market v d)) d (mu_at ex_market v) i 0 = (if Nat.eqb i 0 then L (v_sigma v O O) else 1 - L (v_sigma v O O)) /\
  conds (fm (market_of ex_market v d)) d (mu_at ex_market v) i 0 = 1.
Proof.
  intros Hr Hd Hi. change (fm (market_of ex_market v d)) with (nest_one (v_rho v O)).
  destruct (nest_one_probs (v_rho v O) d (mu_at ex_market v) i Hr) as [P C]. split; [|exact C]. rewrite P, Hd.
  destruct i as [|[|]]; [| |lia].
  - cbn [Nat.eqb]. f_equal. unfold mu_at, mu_of, random_coefficients. cbn. ring.
  - cbn [Nat.eqb]. rewrite <- L_opp. f_equal. unfold mu_at, mu_of, random_coefficients. cbn. ring.
Qed.

Lemma ex_matched v : v_rho v O < 1 -> matched ex_market v (fun _ => 0).
Proof.
  intros Hr j Hj. assert (j = O) by (cbn in Hj; lia). subst j.
  change (fI (market_of ex_market v (fun _ => 0))) with 2%nat. cbn [sumn].
  destruct (ex_prob v (fun _ => 0) 0 Hr eq_refl ltac:(lia)) as [P0 _]. destruct (ex_prob v (fun _ => 0) 1 Hr eq_refl ltac:(lia)) as [P1 _].
  cbv zeta. rewrite P0, P1. cbn. field.
Qed.

Lemma ex_capital_delta v : v_rho v O < 1 ->
  capital_delta (market_of ex_market v (fun _ => 0)) (e_ownership ex_market) (var0 (e_market ex_market)) 0 0
  = - v_beta v 1 * (L (v_sigma v O O) * (1 - L (v_sigma v O O))).
Proof.
  intro Hr. unfold capital_delta, gamma_at, lamda_at. rewrite own_delta.
  assert (EM : forall i, (i < 2)%nat -> update_mu (market_of ex_market v (fun _ => 0)) (var0 (e_market ex_market)) i O = mu_at ex_market v i O).
  { intros i Hi. unfold update_mu, compute_mu, mu_at, mu_of. cbn. ring. }
  set (mu := update_mu _ _) in *.
  assert (Q : forall i, (i < 2)%nat -> probs (fm (market_of ex_market v (fun _ => 0))) (fun _ => 0) mu i 0
      = (if Nat.eqb i 0 then L (v_sigma v O O) else 1 - L (v_sigma v O O)) /\
      conds (fm (market_of ex_market v (fun _ => 0))) (fun _ => 0) mu i 0 = 1).
  { intros i Hi. destruct (ex_prob v (fun _ => 0) i Hr eq_refl Hi) as [P C]. change (fm (market_of ex_market v (fun _ => 0))) with (nest_one (v_rho v O)) in *.
    destruct (nest_one_probs (v_rho v O) (fun _ => 0) mu i Hr) as [P' C']. destruct (nest_one_probs (v_rho v O) (fun _ => 0) (mu_at ex_market v) i Hr) as [P'' _].
    split; [|exact C']. rewrite P', EM, <- P'' by exact Hi. exact P. }
  assert (HU : forall i, utility_derivatives (market_of ex_market v (fun _ => 0)) false (var0 (e_market ex_market)) i O = v_beta v 1%nat).
  { intro i. unfold utility_derivatives. cbn. destruct (Req_EM_T 1 1); field. }
  destruct (Q O ltac:(lia)) as [P0 C0]. destruct (Q 1%nat ltac:(lia)) as [P1 C1].
  unfold capital_gamma, capital_lamda. change (fI (market_of ex_market v (fun _ => 0))) with 2%nat.
  change (fw (market_of ex_market v (fun _ => 0))) with (fun _ : nat => / 2).
  change (Nat.eqb (mH (fm (market_of ex_market v (fun _ => 0)))) O) with false. cbv iota zeta. cbn [sumn].
  rewrite !HU, P0, P1, C0, C1.
  change (membership (fm (market_of ex_market v (fun _ => 0%R))) O O) with 1.
  change (DemandModel.rho (fm (market_of ex_market v (fun _ => 0%R))) O) with (v_rho v O). cbn. field. lra.
Qed.

Lemma ex_regular v : v_rho v O < 1 -> 0 <= v_rho v O -> regular ex_market v.
Proof.
  intros H1 H2. constructor.
  - exact (nest_one_valid (v_rho v O) H1).
  - split; [intros; cbn; lra|exists O; cbn; split; [lia|lra]].
  - intros _ h _. exact H2.
  - reflexivity.
  - intros j k. cbn. reflexivity.
Qed.

Lemma ex_clean v keep : v_rho v O < 1 -> v_beta v 1%nat <> 0 -> clean ex_solve ex_inverse ex_economy (fun _ _ _ => 0) keep v.
Proof.
  intros Hr Hb s Hs. cbn in Hs. change (ec_market ex_economy s) with ex_market. split; [exact (ex_matched v Hr)|].
  intros _. assert (K := ex_capital_delta v Hr). assert (P := L_pos (v_sigma v O O)).
  assert (N : capital_delta (market_of ex_market v (fun _ => 0)) (e_ownership ex_market) (var0 (e_market ex_market)) 0 0 <> 0).
  { rewrite K. apply Rmult_integral_contrapositive_currified; [lra|apply Rmult_integral_contrapositive_currified; lra]. }
  destruct keep; unfold eta_of, kept_inverse, compute_eta, ex_inverse, ex_solve; cbn [snd]; unfold reqb;
    change (Nat.eqb (mJ (fm (market_of ex_market v (fun _ => 0)))) 1) with true; cbn [andb];
    (destruct (Req_EM_T _ 0) as [Z|Z]; [exfalso; apply N; exact Z|reflexivity]).
Qed.

Lemma ex_ready i : 
  let p := ex_theta i in let t := value_at ex_point p in
  let delta_of := fun (_ : point) (_ _ : nat) => 0 in
  refers ex_economy /\ gmm_ready ex_economy /\ regular ex_market ex_point /\ in_theta ex_economy ex_market ex_point p /\
  (forall keep y, Rabs (y - t) < / 4 -> clean ex_solve ex_inverse ex_economy delta_of keep (moved ex_point p y)) /\
  clean ex_solve ex_inverse ex_economy delta_of true ex_point /\
  columns_ready ex_solve ex_economy delta_of ex_point p /\
  costs_ready ex_solve ex_inverse ex_economy delta_of ex_point /\
  micro_ready ex_economy delta_of ex_point.
Proof.
  intros p t delta_of.
  assert (Hr : v_rho ex_point O < 1) by (cbn; lra).
  assert (L0 : L 0 = / 2) by (unfold L; rewrite exp_0; field).
  split; [|split; [|split; [|split; [|split; [|split; [|split; [|split]]]]]]].
  - split.
    + intros n Hn. cbn. lia.
    + intros q s sv [E|[]]. injection E as <- <-. cbn. repeat split; try lia; intros; lra.
  - repeat split.
    + intros a b _ _. cbn. unfold eqR. rewrite Nat.eqb_sym. reflexivity.
    + intros a m Ha Hm. cbn in *. unfold eqR. destruct (Nat.eqb_spec a (S (S m))); [lia|reflexivity].
    + intros k l Hk Hl. cbn in Hk, Hl. assert (k = O) by lia. assert (l = O) by lia. subst. unfold iv_information, rows. cbn. unfold eqR. cbn. ring.
    + intros a c Ha Hc. cbn in *. destruct a as [|[|]]; [| |lia]; (destruct c as [|[|]]; [| |lia]); unfold eqR; cbn; ring.
  - apply ex_regular; cbn; lra.
  - unfold p. destruct i as [|[|[|i]]]; cbn; repeat split; try lia; try lra; auto.
  - intros keep y Hy. apply Rabs_def2 in Hy. unfold t, p in *. apply ex_clean; destruct i as [|[|[|i]]]; cbn in *; try lra.
  - apply ex_clean; cbn; lra.
  - intros s Hs. change (ec_market ex_economy s) with ex_market.
    unfold xi_column, xi_by_theta, ex_solve. cbn [snd].
    change (Nat.eqb (mJ (fm (market_of ex_market ex_point (delta_of ex_point s)))) 1) with true. cbn [andb].
    assert (Q : shares_by_xi_jacobian (fm (market_of ex_market ex_point (delta_of ex_point s))) (fI (market_of ex_market ex_point (delta_of ex_point s)))
      (fw (market_of ex_market ex_point (delta_of ex_point s))) (e_shares ex_market)
      (probs (fm (market_of ex_market ex_point (delta_of ex_point s))) (delta_of ex_point s) (mu_at ex_market ex_point))
      (conds (fm (market_of ex_market ex_point (delta_of ex_point s))) (delta_of ex_point s) (mu_at ex_market ex_point)) 0 0 = / 4).
    { destruct (ex_prob ex_point (delta_of ex_point s) 0 Hr eq_refl ltac:(lia)) as [P0 C0].
      destruct (ex_prob ex_point (delta_of ex_point s) 1 Hr eq_refl ltac:(lia)) as [P1 C1].
      unfold shares_by_xi_jacobian. change (fI (market_of ex_market ex_point (delta_of ex_point s))) with 2%nat. cbn [sumn].
      rewrite P0, P1, C0, C1. cbn. rewrite L0. destruct (Req_EM_T 1 1) as [_|]; [|lra]. unfold DemandModel.rho, membership. cbn. field. }
    unfold reqb. destruct (Req_EM_T _ 0) as [Z|Z]; [|reflexivity]. rewrite Q in Z. lra.
  - intros _ _ s j _ Hj. cbn in Hj. assert (j = O) by lia. subst j. change (ec_market ex_economy s) with ex_market.
    cbn [eta_of fst]. unfold kept_inverse, ex_inverse. cbn [fst].
    change (mJ (fm (market_of ex_market ex_point (delta_of ex_point s)))) with 1%nat. cbn [sumn].
    assert (K := ex_capital_delta ex_point Hr). change (var0 (market_of ex_market ex_point (delta_of ex_point s))) with (var0 (e_market ex_market)).
    unfold delta_of. rewrite K. cbn. rewrite L0. match goal with |- ?x < _ => replace x with 2 by field end. lra.
  - intros mo [<-|[]]. split.
    + intros w dw x _ D. cbn in *. eapply DemandDeriv.dlim_eq; [|exact (D O Nat.lt_0_1)]. ring.
    + intros q _. cbn [ec_parts ex_economy sum_over fst snd]. unfold survey_denominator, survey_sum, survey_weight. cbn [s_I ex_survey s_shape s_J sumn cells options_of map seq app sum_over s_weight s_agent_weight].
      assert (E : forall i, (i < 2)%nat -> micro_cell (ec_market ex_economy 0) ex_point (delta_of ex_point O) i (Single (Some O)) = / 2).
      { intros k Hk. destruct (ex_prob ex_point (delta_of ex_point O) k Hr eq_refl Hk) as [P _].
        transitivity (probs (fm (market_of ex_market ex_point (delta_of ex_point O))) (delta_of ex_point O) (mu_at ex_market ex_point) k 0); [reflexivity|].
        rewrite P. cbn. rewrite L0. destruct (Nat.eqb k 0); lra. }
      rewrite !E by lia. unfold truncate. destruct (Rlt_dec _ 0); lra.
Qed.
