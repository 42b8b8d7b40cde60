(** Proofs about the gradient of the GMM objective. *)
From Coq Require Import Reals List Bool Arith Lra Lia FunctionalExtensionality.
From Verif Require Import ProgressModel ProgressSpec ProgressProofs Base DemandModel DemandProofs DemandShares DemandDeriv SupplyModel SupplyProofs
  DerivModel DerivProofs DerivCurve DerivParam DerivMore DerivPaths DerivLinear MicroModel NestModel NestSpec NestProofs GradModel GradSpec.
Local Open Scope R_scope.

Lemma upd_own f r : upd f r (f r) = f.
Proof. apply functional_extensionality; intro x. unfold upd. destruct (Nat.eqb_spec x r); subst; reflexivity. Qed.
Lemma upd2_own f a b : upd2 f a b (f a b) = f.
Proof.
  apply functional_extensionality; intro x. apply functional_extensionality; intro y. unfold upd2.
  destruct (Nat.eqb_spec x a), (Nat.eqb_spec y b); subst; reflexivity.
Qed.
Lemma moved_own v p : moved v p (value_at v p) = v.
Proof.
  destruct v, p as [[a b|a b]|r|k|k]; cbn; rewrite ?upd_own, ?upd2_own; reflexivity.
Qed.

Lemma own_mu e v d : regular e v -> update_mu (market_of e v d) (var0 (e_market e)) = mu_at e v.
Proof.
  intros H. apply functional_extensionality; intros i. apply functional_extensionality; intros j.
  unfold update_mu, compute_mu, mu_at, mu_of. cbn. rewrite (reg_K2 _ _ H). apply sumn_ext; intros k Hk.
  rewrite (reg_X2 _ _ H). reflexivity.
Qed.
Lemma own_delta e v d : update_delta (market_of e v d) (var0 (e_market e)) = d.
Proof.
  apply functional_extensionality; intros j. unfold update_delta. cbn.
  rewrite (sumn_ext _ _ (fun _ => 0)); [rewrite sumn_zero; ring|].
  intros k Hk. destruct (uses _); [ring|reflexivity].
Qed.

Section OneMarket.
  Variables (solve : nat -> solver) (ec : economy) (e : economy_market) (v : point) (p : parameter) (dpath : R -> nat -> R) (r : R).
  Hypothesis HS : exact_solve solve.
  Hypothesis HR : regular e v.
  Hypothesis HP : in_theta ec e v p.
  Let t := value_at v p.
  Hypothesis Hr : 0 < r.
  Hypothesis Hm : forall y, Rabs (y - t) < r -> matched e (moved v p y) (dpath y).
  Hypothesis Hx : snd (xi_column solve e v (dpath t) p) = false.
  Let J := products e.
  Let a := mk_agents (fI (e_market e)) (fw (e_market e)) (mu_at e v).
  Let m := fm (market_of e v (fun _ => 0)).

  Lemma tt_near : Rabs (t - t) < r.
  Proof using Hr. unfold Rminus. rewrite Rplus_opp_r, Rabs_R0. exact Hr. Qed.
  Lemma own_matched : matched e v (dpath t).
  Proof using Hr Hm. assert (H := Hm t tt_near). unfold t in H at 1. rewrite moved_own in H. exact H. Qed.
  Lemma own_observed : forall j, (j < J)%nat -> e_shares e j = market_shares m a true (dpath t) j.
  Proof using Hr Hm. intros j Hj. symmetry. exact (own_matched j Hj). Qed.
  Lemma rho_nonneg : mH m <> O -> forall h, (h < mH m)%nat -> 0 <= grho m h.
  Proof using HR. exact (reg_rho _ _ HR). Qed.

  Let flag (q h : nat) : bool := Nat.eqb (e_group e h) q.

  Lemma delta_stays : match p with Beta _ | Gamma _ => True | _ => False end ->
    forall y, Rabs (y - t) < r -> forall j, (j < J)%nat -> dpath y j = dpath t j.
  Proof using HR Hr Hm.
    intros Hp y Hy j Hj. assert (V := reg_market _ _ HR). assert (VA := reg_agents _ _ HR). assert (Ho := own_observed).
    apply (shares_injective m a true (dpath y) (dpath t) V VA rho_nonneg); [|exact Hj].
    intros l Hl. rewrite <- (Ho l Hl). revert Hm Hy. clear Ho Hx HP. subst t. destruct p; try contradiction; intros Hm Hy; exact (Hm y Hy l Hl).
  Qed.

  Definition direction (j : nat) : R :=
    match p with
    | Nonlinear _ | Rho _ => fst (xi_column solve e v (dpath t) p) j
    | _ => 0
    end.

  Lemma delta_moves j : (j < J)%nat -> derivable_pt_lim (fun y => dpath y j) t (direction j).
  Proof using HS HR HP Hr Hm Hx.
    intro Hj. assert (V := reg_market _ _ HR). assert (VA := reg_agents _ _ HR).
    assert (S := delta_stays). revert S. unfold direction. generalize Hx Hm HP. clear Hx Hm HP. subst t. destruct p as [q|q|k|k]; intros Hx Hm HP S.
    - refine (xi_by_theta_derivative (solve (mJ m)) m a (e_tastes e) (v_sigma v) (v_pi v) q (e_shares e) dpath V VA _ rho_nonneg (HS _) eq_refl _ Hx j Hj).
      + destruct q; exact HP.
      + exists r. split; [exact Hr|]. intros y k Hy Hk. exact (Hm y Hy k Hk).
    - destruct HP as [HH [Ht Hall]].
      refine (xi_by_rho_derivative (solve (mJ m)) m a (flag q) (v_rho v q) (e_shares e) dpath V VA HH _ Ht _ (rho_nonneg HH) (HS _) _ Hx j Hj).
      + intros h Hh. apply Nat.eqb_eq in Hh. cbn. rewrite Hh. reflexivity.
      + intros Hmu h Hh. apply Nat.eqb_eq. apply Hall; assumption.
      + exists r. split; [exact Hr|]. intros y k Hy Hk. exact (Hm y Hy k Hk).
    - apply dlim_ext_near with (f := fun _ => dpath (v_beta v k) j) (d := r); [exact Hr| |apply dlim_const].
      intros y Hy. symmetry. exact (S I y Hy j Hj).
    - apply dlim_ext_near with (f := fun _ => dpath (v_gamma v k) j) (d := r); [exact Hr| |apply dlim_const].
      intros y Hy. symmetry. exact (S I y Hy j Hj).
  Qed.

  (** Mean utilities net of linear parameters in theta. *)
  Lemma net_moves (K : nat) (dropped : nat -> bool) (X : nat -> R) b k t0 : (k < K)%nat -> dropped k = false ->
    derivable_pt_lim (fun y => sumn K (fun l => if dropped l then 0 else X l * upd b k y l)) t0 (X k).
  Proof using.
    intros Hk Hd. eapply dlim_eq; [|apply (dlim_sumn K (fun l y => if dropped l then 0 else X l * upd b k y l) t0
      (fun l => if Nat.eqb l k then X l else 0))].
    - apply (sumn_delta K k X Hk).
    - intros l Hl. unfold upd. destruct (Nat.eqb_spec l k) as [->|N].
      + rewrite Hd. eapply dlim_eq; [|apply dlim_scal, dlim_id]. ring.
      + apply dlim_const.
  Qed.

  Lemma xi_moves j : (j < J)%nat ->
    derivable_pt_lim (fun y => dpath y j - sumn (ec_K1 ec) (fun k => if ec_eliminated_beta ec k then 0 else e_X1 e j k * v_beta (moved v p y) k)) t
      (fst (xi_column solve e v (dpath t) p) j).
  Proof using HS HR HP Hr Hm Hx.
    intro Hj. assert (D := delta_moves j Hj). assert (V := reg_market _ _ HR). assert (VA := reg_agents _ _ HR). assert (Ho := own_observed).
    revert D Ho. unfold direction. generalize Hx Hm HP. clear Hx Hm HP. subst t. destruct p as [q|q|k|k]; intros Hx Hm HP D Ho; cbn [moved v_beta].
    - eapply dlim_eq; [|apply dlim_minus; [exact D|apply dlim_const]]. ring.
    - eapply dlim_eq; [|apply dlim_minus; [exact D|apply dlim_const]]. ring.
    - destruct HP as [Hk [_ Hd]]. eapply dlim_eq; [|apply dlim_minus; [exact D|apply (net_moves _ _ (e_X1 e j)); assumption]].
      symmetry. rewrite Rminus_0_l.
      exact (xi_by_beta_exact (solve (mJ m)) m a (dpath (v_beta v k)) (e_shares e) (fun l => e_X1 e l k) V VA rho_nonneg (HS _) Ho Hx j Hj).
    - eapply dlim_eq; [|apply dlim_minus; [exact D|apply dlim_const]]. rewrite Rminus_0_r. symmetry.
      exact (xi_by_other_exact (solve (mJ m)) m a (dpath (v_gamma v k)) (e_shares e) V VA rho_nonneg (HS _) Ho Hx j Hj).
  Qed.

  (** Markups. *)
  Variables (inverse : nat -> (nat -> nat -> R) -> (nat -> nat -> R) * bool) (keep : bool).
  Hypothesis HI : exact_inverse inverse.
  Hypothesis He : forall y, Rabs (y - t) < r -> snd (eta_of solve e (moved v p y) (dpath y) inverse keep) = false.
  Hypothesis Hk : snd (kept_inverse e v (dpath t) inverse) = false.

  Lemma eta_solves w d : snd (eta_of solve e w d inverse keep) = false ->
    solves J (capital_delta (market_of e w d) (e_ownership e) (var0 (e_market e))) (e_shares e) (fst (eta_of solve e w d inverse keep)).
  Proof using HS HI.
    clear He. unfold eta_of. destruct keep; cbn [fst snd].
    - unfold kept_inverse. cbn [fm market_of mJ with_rho var0]. intros Hf j Hj.
      set (A := capital_delta _ _ _) in *. set (B := fst (inverse _ A)).
      transitivity (sumn J (fun l => sumn J (fun k => A j k * B k l) * e_shares e l)).
      + transitivity (sumn J (fun k => sumn J (fun l => A j k * B k l * e_shares e l))).
        * apply sumn_ext. intros k Hk'. rewrite <- sumn_scal. apply sumn_ext. intros; ring.
        * rewrite sumn_swap. apply sumn_ext. intros l Hl. rewrite <- sumn_scal_r. reflexivity.
      + rewrite <- (sumn_delta J j (e_shares e) Hj). apply sumn_ext. intros l Hl.
        assert (E := proj2 (HI J A Hf j l Hj Hl)). change (sumn J (fun b => A j b * B b l) = if Nat.eqb j l then 1 else 0) in E.
        rewrite E, Nat.eqb_sym. destruct (Nat.eqb l j); ring.
    - intros Hf. exact (HS _ _ _ Hf).
  Qed.

  Lemma kept_left j k : (j < J)%nat -> (k < J)%nat ->
    sumn J (fun b => fst (kept_inverse e v (dpath t) inverse) j b * capital_delta (market_of e v (dpath t)) (e_ownership e) (var0 (e_market e)) b k)
    = if Nat.eqb j k then 1 else 0.
  Proof using HI Hk. intros Hj Hkk. exact (proj1 (HI _ _ Hk j k Hj Hkk)). Qed.

  (** With or without the inverse, markups at v are the same. *)
  Lemma eta_same j : (j < J)%nat ->
    fst (eta_of solve e v (dpath t) inverse keep) j = fst (eta_of solve e v (dpath t) inverse true) j.
  Proof using HS HI He Hk Hr.
    intro Hj. assert (F := He t tt_near). unfold t in F at 1. rewrite moved_own in F.
    assert (S := eta_solves v (dpath t) F). cbn [eta_of fst].
    symmetry. change (mJ (fm (market_of e v (dpath t)))) with J.
    rewrite (sumn_ext J _ (fun k => fst (kept_inverse e v (dpath t) inverse) j k * sumn J (fun l =>
      capital_delta (market_of e v (dpath t)) (e_ownership e) (var0 (e_market e)) k l * fst (eta_of solve e v (dpath t) inverse keep) l)))
      by (intros k Hkk; rewrite (S k Hkk); reflexivity).
    transitivity (sumn J (fun l => sumn J (fun k => fst (kept_inverse e v (dpath t) inverse) j k *
      capital_delta (market_of e v (dpath t)) (e_ownership e) (var0 (e_market e)) k l) * fst (eta_of solve e v (dpath t) inverse keep) l)).
    - transitivity (sumn J (fun k => sumn J (fun l => fst (kept_inverse e v (dpath t) inverse) j k *
        capital_delta (market_of e v (dpath t)) (e_ownership e) (var0 (e_market e)) k l * fst (eta_of solve e v (dpath t) inverse keep) l))).
      + apply sumn_ext. intros k Hkk. rewrite <- sumn_scal. apply sumn_ext. intros; ring.
      + rewrite sumn_swap. apply sumn_ext. intros l Hl. rewrite <- sumn_scal_r. reflexivity.
    - rewrite <- (sumn_delta J j (fst (eta_of solve e v (dpath t) inverse keep)) Hj). apply sumn_ext. intros l Hl.
      rewrite kept_left by assumption. rewrite Nat.eqb_sym. destruct (Nat.eqb l j); ring.
  Qed.

  (** A parameter that moves neither probabilities nor nesting. *)
  Lemma flat_capital_delta (w : R -> point) dU :
    (forall y, v_sigma (w y) = v_sigma v /\ v_pi (w y) = v_pi v /\ v_rho (w y) = v_rho v) -> w t = v ->
    (forall y, Rabs (y - t) < r -> forall j, (j < J)%nat -> dpath y j = dpath t j) ->
    (forall i j, derivable_pt_lim (fun y => utility_derivatives (market_of e (w y) (dpath y)) false (var0 (e_market e)) i j) t (dU i j)) ->
    forall j k, (j < J)%nat -> (k < J)%nat ->
    derivable_pt_lim (fun y => capital_delta (market_of e (w y) (dpath y)) (e_ownership e) (var0 (e_market e)) j k) t
      (capital_delta_tangent m (fI (e_market e)) (fw (e_market e)) (probs m (dpath t) (mu_at e v)) (conds m (dpath t) (mu_at e v))
         (utility_derivatives (market_of e v (dpath t)) false (var0 (e_market e))) beta_total_tangent beta_total_tangent dU (fun _ => 0)
         (e_ownership e) j k).
  Proof using HR Hr.
    intros Hw Hwt Hd HU j k Hj Hkk. assert (V := reg_market _ _ HR : valid_market m).
    assert (Near : forall y, Rabs (y - t) < r -> forall i l, (l < mJ m)%nat -> utility m (dpath t) (mu_at e v i) l = utility m (dpath y) (mu_at e v i) l).
    { intros y Hy i l Hl. unfold utility. rewrite (Hd y Hy l Hl). reflexivity. }
    assert (D := capital_delta_derive m (fI (e_market e)) (fw (e_market e)) t (fun h _ => grho m h) (fun _ => 0)
      (fun y => probs m (dpath y) (mu_at e v)) (fun y => conds m (dpath y) (mu_at e v))
      (fun y => utility_derivatives (market_of e (w y) (dpath y)) false (var0 (e_market e)))
      beta_total_tangent beta_total_tangent dU
      (fun HH j Hj => rho_lt _ _ V HH Hj) (fun h => eq_refl) (fun j _ => dlim_const _ _)).
    cbv beta in D. rewrite Hwt in D.
    eapply dlim_ext; [|apply D; try assumption].
    - intros y. unfold capital_delta_curve, capital_delta, gamma_at, lamda_at.
      rewrite own_delta. destruct (Hw y) as [E1 [E2 E3]].
      replace (update_mu (market_of e (w y) (dpath y)) (var0 (e_market e))) with (mu_at e v).
      2:{ rewrite <- (own_mu e v (dpath y) HR). unfold update_mu, compute_mu. cbn. rewrite E1, E2. reflexivity. }
      cbn [fm fI fw market_of]. rewrite E3, (with_own_rho m). reflexivity.
    - intros i l Hl. apply dlim_ext_near with (f := fun _ => probs m (dpath t) (mu_at e v) i l) (d := r); [exact Hr| |apply dlim_const].
      intros y Hy. unfold probs. apply probabilities_ext; try assumption. intros. apply Near; assumption.
    - intros HH i l Hl. apply dlim_ext_near with (f := fun _ => conds m (dpath t) (mu_at e v) i l) (d := r); [exact Hr| |apply dlim_const].
      intros y Hy. rewrite !conds_cond. apply cond_ext; try assumption. intros. apply Near; assumption.
    - intros i l Hl. apply HU.
  Qed.

  Lemma eta_by_theta_ext (n : nat) inv D x x' j : (forall k, (k < n)%nat -> x k = x' k) -> eta_by_theta n inv D x j = eta_by_theta n inv D x' j.
  Proof using.
    intro H. unfold eta_by_theta. f_equal. apply sumn_ext. intros k Hkk. f_equal. apply H; assumption.
  Qed.

  Lemma eta_moves j : (j < J)%nat ->
    derivable_pt_lim (fun y => fst (eta_of solve e (moved v p y) (dpath y) inverse keep) j) t (eta_column solve e v (dpath t) inverse p j).
  Proof using HS HR HP Hr Hm Hx HI He Hk.
    intro Hj. set (eta := fun y => fst (eta_of solve e (moved v p y) (dpath y) inverse keep)).
    assert (Hsol : forall y, Rabs (y - t) < r -> solves J (capital_delta (market_of e (moved v p y) (dpath y)) (e_ownership e) (var0 (e_market e))) (e_shares e) (eta y)).
    { intros y Hy. apply eta_solves, He, Hy. }
    assert (KL : forall j k, (j < J)%nat -> (k < J)%nat ->
      sumn J (fun b => fst (kept_inverse e v (dpath t) inverse) j b * capital_delta (market_of e (moved v p t) (dpath t)) (e_ownership e) (var0 (e_market e)) b k)
      = if Nat.eqb j k then 1 else 0).
    { unfold t at 2. rewrite moved_own. exact kept_left. }
    assert (Et : forall k, (k < J)%nat -> eta t k = fst (eta_of solve e v (dpath t) inverse true) k).
    { intros k Hkk. unfold eta, t at 1. rewrite moved_own. apply eta_same, Hkk. }
    assert (V := reg_market _ _ HR : valid_market m). assert (DD := delta_moves).
    unfold eta_column. change (mJ (fm (market_of e v (dpath t)))) with J.
    rewrite <- (eta_by_theta_ext J _ _ _ _ j Et). clear Et.
    assert (S := delta_stays). assert (F := flat_capital_delta). revert S F DD KL Hsol. subst eta. unfold direction. generalize Hm HP. clear Hx Hm HP He Hk. subst t.
    destruct p as [q|q|k|k]; intros Hm HP S F DD KL Hsol.
    - refine (eta_by_theta_derivative (market_of e v (dpath (value_at v (Nonlinear q)))) (e_tastes e) (v_sigma v) (v_pi v) q V _ (reg_K2 _ _ HR) (reg_X2 _ _ HR) dpath _ DD _ _ _ _ r Hr Hsol KL j Hj).
      destruct q; exact HP.
    - destruct HP as [HH [Ht Hall]].
      assert (D := eta_by_rho_derivative (market_of e v (dpath (v_rho v q))) (flag q) (v_rho v q) V HH).
      cbv zeta in D. change (var0 (market_of e v (dpath (v_rho v q)))) with (var0 (e_market e)) in D.
      rewrite (own_mu e v (dpath (v_rho v q)) HR) in D.
      refine (D _ (proj2 Ht) _ dpath _ DD _ _ _ _ r Hr Hsol KL j Hj).
      + intros h Hh. apply Nat.eqb_eq in Hh. cbn. rewrite Hh. reflexivity.
      + intros Hmu h Hh. apply Nat.eqb_eq. apply Hall; assumption.
    - destruct HP as [H1 [H2 _]].
      apply (eta_differentiable J (fun y => capital_delta (market_of e (moved v (Beta k) y) (dpath y)) (e_ownership e) (var0 (e_market e))) _ _
        (fun y => fst (eta_of solve e (moved v (Beta k) y) (dpath y) inverse keep)) (e_shares e) (value_at v (Beta k)) r Hr); try assumption.
      + intros y b Hy Hb. exact (Hsol y Hy b Hb).
      + refine (F (moved v (Beta k)) (derivatives_tangent e v (dpath (v_beta v k)) (Beta k)) _ (moved_own v (Beta k)) (S I) _).
        * intros y. repeat split.
        * intros i l. refine (with_beta_utility_derivatives (market_of e v (dpath (v_beta v k))) k _ i l). cbn. rewrite H2. exact H1.
    - apply (eta_differentiable J (fun y => capital_delta (market_of e (moved v (Gamma k) y) (dpath y)) (e_ownership e) (var0 (e_market e))) _ _
        (fun y => fst (eta_of solve e (moved v (Gamma k) y) (dpath y) inverse keep)) (e_shares e) (value_at v (Gamma k)) r Hr); try assumption.
      + intros y b Hy Hb. exact (Hsol y Hy b Hb).
      + refine (F (moved v (Gamma k)) (derivatives_tangent e v (dpath (v_gamma v k)) (Gamma k)) _ (moved_own v (Gamma k)) (S I) _).
        * intros y. repeat split.
        * intros i l. exact (dlim_const (utility_derivatives (market_of e v (dpath (v_gamma v k))) false (var0 (e_market e)) i l) _).
  Qed.

  Lemma eta_column_gamma q j : p = Gamma q -> eta_column solve e v (dpath t) inverse p j = 0.
  Proof using.
    intros E. unfold eta_column, eta_by_theta. rewrite sumn_all_zero; [ring|]. intros l _. rewrite sumn_all_zero; [ring|]. intros b _.
    rewrite E. unfold capital_delta_tangent.
    set (m0 := fm (market_of e v (dpath t))). set (U := utility_derivatives _ _ _).
    assert (Z : forall i c, pud_tangent (probs m0 (dpath t) (mu_at e v)) U
      (updated_tangent solve e v (dpath t) (Gamma q)) (derivatives_tangent e v (dpath t) (Gamma q)) i c = 0).
    { intros i c. unfold pud_tangent. unfold updated_tangent, derivatives_tangent, beta_total_tangent. ring. }
    unfold capital_gamma_tangent, capital_lamda_tangent. cbn [associations]. 
    set (I0 := fI _). set (w0 := fw _). set (P := probs _ _ _) in *. set (C := conds _ _ _).
    assert (Z1 : forall x f, sumn I0 (fun i => updated_tangent solve e v (dpath t) (Gamma q) i x * f i) = 0)
      by (intros x f; apply sumn_all_zero; intros i _; unfold updated_tangent, beta_total_tangent; ring).
    assert (Z2 : forall x f, sumn I0 (fun i => updated_conditionals solve e v (dpath t) (Gamma q) i x * f i) = 0)
      by (intros x f; apply sumn_all_zero; intros i _; unfold updated_conditionals, beta_total_tangent; ring).
    assert (Z3 : forall x (f : nat -> R), sumn I0 (fun i => f i * (w0 i * pud_tangent P U
      (updated_tangent solve e v (dpath t) (Gamma q)) (derivatives_tangent e v (dpath t) (Gamma q)) i x)) = 0)
      by (intros x f; apply sumn_all_zero; intros i _; rewrite Z; ring).
    assert (Z4 : forall x, sumn I0 (fun i => pud_tangent P U
      (updated_tangent solve e v (dpath t) (Gamma q)) (derivatives_tangent e v (dpath t) (Gamma q)) i x * w0 i) = 0)
      by (intros x; apply sumn_all_zero; intros i _; rewrite Z; ring).
    rewrite !Z1, !Z2, !Z3, !Z4. unfold Rdiv. destruct (Nat.eqb (mH m0) 0), (Nat.eqb l b); ring.
  Qed.

  Lemma omega_moves (costs_log : bool) j : (j < J)%nat ->
    (costs_log = true -> fst (eta_of solve e v (dpath t) inverse true) j < var0 (e_market e) j) ->
    derivable_pt_lim (fun y => tilde_costs_at solve e (moved v p y) (dpath y) inverse costs_log keep j
      - sumn (ec_K3 ec) (fun k => if ec_eliminated_gamma ec k then 0 else e_X3 e j k * v_gamma (moved v p y) k)) t
      (omega_column solve e v (dpath t) inverse costs_log p j).
  Proof using HS HR HP Hr Hm Hx HI He Hk.
    intros Hj Hc. assert (D := eta_moves j Hj). assert (Et := eta_same j Hj).
    assert (DC : derivable_pt_lim (fun y => tilde_costs_at solve e (moved v p y) (dpath y) inverse costs_log keep j) t
      (omega_by_theta costs_log (tilde_costs_at solve e v (dpath t) inverse costs_log true) (eta_column solve e v (dpath t) inverse p) j)).
    { assert (F := omega_derive costs_log (var0 (e_market e)) (fun y => fst (eta_of solve e (moved v p y) (dpath y) inverse keep))
        (eta_column solve e v (dpath t) inverse p j) t j D).
      cbv beta in F. unfold t in F at 2 3. rewrite moved_own in F. fold t in F. rewrite Et in F.
      eapply dlim_eq; [|apply F]; [|intro L; specialize (Hc L); lra].
      unfold omega_by_theta, tilde_costs_at, tilde_costs_of. cbn [var0 market_of]. rewrite Et. reflexivity. }
    assert (G := eta_column_gamma). revert G DC. unfold omega_column. generalize HP. clear HP Hx Hm He Hk D Et Hc. subst t.
    destruct p as [q|q|k|k]; intros HP G DC; cbn [moved v_gamma].
    - eapply dlim_eq; [|apply dlim_minus; [exact DC|apply dlim_const]]. ring.
    - eapply dlim_eq; [|apply dlim_minus; [exact DC|apply dlim_const]]. ring.
    - eapply dlim_eq; [|apply dlim_minus; [exact DC|apply dlim_const]]. ring.
    - destruct HP as [H1 H2]. eapply dlim_eq; [|apply dlim_minus; [exact DC|apply (net_moves _ _ (e_X3 e j)); assumption]].
      unfold omega_by_theta. rewrite (G k j eq_refl). unfold omega_by_gamma. destruct costs_log; [unfold Rdiv|]; ring.
  Qed.

  (** Micro moments. *)
  Variable s : survey.
  Hypothesis SJ : s_J s = J.
  Hypothesis SI : s_I s = fI (e_market e).
  Hypothesis SW : forall i, (i < s_I s)%nat -> s_agent_weight s i = fw (e_market e) i.
  Hypothesis SN : forall i c, 0 <= s_weight s i c.

  Lemma shares_sum (q : R -> nat -> nat -> R) (dq : nat -> R) j x : (j < J)%nat ->
    (forall i, (i < s_I s)%nat -> derivable_pt_lim (fun y => q y i j) t (dq i)) ->
    (forall y, Rabs (y - t) < r -> sumn (s_I s) (fun i => q y i j * fw (e_market e) i) = x) ->
    sumn (s_I s) (fun i => s_agent_weight s i * dq i) = 0.
  Proof using Hr SW.
    intros Hj D E.
    assert (D1 : derivable_pt_lim (fun y => sumn (s_I s) (fun i => q y i j * fw (e_market e) i)) t (sumn (s_I s) (fun i => dq i * fw (e_market e) i))).
    { apply (dlim_sumn (s_I s) (fun i y => q y i j * fw (e_market e) i)). intros i Hi. apply dlim_scal_r, D, Hi. }
    assert (D2 : derivable_pt_lim (fun y => sumn (s_I s) (fun i => q y i j * fw (e_market e) i)) t 0).
    { apply dlim_ext_near with (f := fun _ => x) (d := r); [exact Hr|intros y Hy; symmetry; apply E, Hy|apply dlim_const]. }
    rewrite <- (dlim_unique _ _ _ _ D1 D2). apply sumn_ext. intros i Hi. rewrite (SW i Hi). ring.
  Qed.

  Lemma can_choose_all : can_choose (mJ m) None.
  Proof using HR. exists O. split; [exact (vm_J _ (reg_market _ _ HR))|reflexivity]. Qed.
  Lemma agents_nonneg i : (i < s_I s)%nat -> 0 <= s_agent_weight s i.
  Proof using HR SI SW. intro Hi. rewrite (SW i Hi). apply (proj1 (reg_agents _ _ HR)). rewrite <- SI. exact Hi. Qed.

  Lemma still_tangent i c : nested_cell_tangent m None None (dpath t) (mu_at e v i) (fun _ => 0)
    (choice_utility_tangent m (dpath t) (mu_at e v i) (fun _ => 0)) c = 0.
  Proof using.
    assert (Z : forall c j, choice_total_tangent m (dpath t) (mu_at e v i) (fun _ => 0)
      (choice_utility_tangent m (dpath t) (mu_at e v i) (fun _ => 0)) c j = 0).
    { intros c' j. unfold choice_total_tangent, total_tangent, choice_utility_tangent, utility_tangent.
      assert (G0 : forall n f, sumn n (fun l => f l * 0) = 0) by (intros n f; apply sumn_all_zero; intros; ring).
      rewrite (G0 (mJ m) (fun l => probabilities_by_xi _ _ _ l j)).
      destruct (Nat.eqb (mH m) 0); cbn [fst].
      - rewrite G0. destruct (Req_EM_T _ _); [ring|unfold Rdiv; ring].
      - assert (G : forall h f, gsum m (fun k => f k * 0) h = 0).
        { intros h f. unfold gsum. apply sumn_all_zero. intros k _. destruct (Nat.eqb _ _); ring. }
        rewrite G. rewrite (sumn_all_zero (mH m)); [unfold Rdiv; ring|]. intros h _. cbv beta. rewrite G. ring. }
    unfold nested_cell_tangent. destruct c as [[j|]|[j|] [k|]]; cbn [cell_tangent]; rewrite ?Z; try ring.
    - rewrite sumn_all_zero; [ring|intros; apply Z].
    - destruct (Nat.eqb j k); ring.
    - rewrite !sumn_all_zero; [ring|intros; apply Z|intros; apply Z].
  Qed.

  Lemma cells_smooth : smooth_cells t s (fun y i => micro_cell e (moved v p y) (dpath y) i) (micro_cell_tangent solve e v (dpath t) p).
  Proof using HS HR HP Hr Hm Hx SJ SI SW SN.
    assert (V := reg_market _ _ HR : valid_market m). assert (DD := delta_moves). assert (Sum := shares_sum). assert (Z := still_tangent).
    revert DD Sum Z. unfold direction. generalize Hm HP. clear Hx Hm HP He Hk. subst t.
    destruct p as [q|q|k|k]; intros Hm HP DD Sum Z.
    - set (t := value_at v (Nonlinear q)) in *.
      assert (DM : forall i k, (i < s_I s)%nat -> (k < mJ m)%nat -> derivable_pt_lim (fun y => mu_at e (moved v (Nonlinear q) y) i k) t
        (utility_direction e v (Nonlinear q) i k)).
      { intros i k _ _. apply mu_derive. destruct q; exact HP. }
      assert (Ev : mu_at e (moved v (Nonlinear q) t) = mu_at e v) by (unfold t; rewrite moved_own; reflexivity).
      assert (U := utility_smooth m (fun _ => None) s dpath (fun y => mu_at e (moved v (Nonlinear q) y)) t _
        (utility_direction e v (Nonlinear q)) V rho_nonneg SJ (fun _ _ => can_choose_all) agents_nonneg SN DD DM).
      cbv zeta beta in U. rewrite Ev in U. apply U. clear U.
      intros j Hj. apply (Sum (fun y => probs m (dpath y) (mu_at e (moved v (Nonlinear q) y))) _ j (e_shares e j) Hj).
      + intros i Hi. 
        assert (C := cell_utility_moves m None None V can_choose_all dpath (fun y => mu_at e (moved v (Nonlinear q) y) i) t _ _
          (Single (Some j)) DD (fun k Hk => DM i k Hi Hk) Hj).
        cbv beta in C. rewrite Ev in C. exact C.
      + intros y Hy. rewrite SI. exact (Hm y Hy j Hj).
    - destruct HP as [HH [Ht Hall]].
      assert (F1 : forall h, flag q h = true -> grho m h = v_rho v q) by (intros h Hh; apply Nat.eqb_eq in Hh; cbn; rewrite Hh; reflexivity).
      assert (F2 : rho_multi m = false -> forall h, (h < mH m)%nat -> flag q h = true) by (intros Hmu h Hh; apply Nat.eqb_eq, Hall; assumption).
      refine (nesting_smooth m (fun _ => None) s (flag q) dpath (mu_at e v) (v_rho v q) _ V HH (rho_nonneg HH) SJ F1 Ht F2
        (fun _ _ => can_choose_all) agents_nonneg SN DD _).
      intros j Hj. apply (Sum (fun y => probs (rho_market m (flag q) y) (dpath y) (mu_at e v)) _ j (e_shares e j) Hj).
      + intros i Hi. exact (cell_nesting_moves m None None V can_choose_all (flag q) (v_rho v q) dpath (mu_at e v i) _
          (Single (Some j)) HH F1 (proj2 Ht) F2 DD Hj).
      + intros y Hy. rewrite SI. exact (Hm y Hy j Hj).
    - assert (U := utility_smooth m (fun _ => None) s dpath (fun _ => mu_at e v) (v_beta v k) (fun _ => 0) (fun _ _ => 0)
        V rho_nonneg SJ (fun _ _ => can_choose_all) agents_nonneg SN DD (fun i l _ _ => dlim_const _ _)).
      cbv zeta beta in U.
      replace (micro_cell_tangent solve e v (dpath (value_at v (Beta k))) (Beta k)) with
        (fun i => nested_cell_tangent m None None (dpath (v_beta v k)) (mu_at e v i) (fun _ => 0)
          (choice_utility_tangent m (dpath (v_beta v k)) (mu_at e v i) (fun _ => 0)))
        by (apply functional_extensionality; intro i; apply functional_extensionality; intro c; exact (Z i c)).
      apply U. intros j Hj. apply sumn_all_zero. intros i Hi.
      etransitivity; [|exact (Rmult_0_r (s_agent_weight s i))]. f_equal. exact (Z i (Single (Some j))).
    - assert (U := utility_smooth m (fun _ => None) s dpath (fun _ => mu_at e v) (v_gamma v k) (fun _ => 0) (fun _ _ => 0)
        V rho_nonneg SJ (fun _ _ => can_choose_all) agents_nonneg SN DD (fun i l _ _ => dlim_const _ _)).
      cbv zeta beta in U.
      replace (micro_cell_tangent solve e v (dpath (value_at v (Gamma k))) (Gamma k)) with
        (fun i => nested_cell_tangent m None None (dpath (v_gamma v k)) (mu_at e v i) (fun _ => 0)
          (choice_utility_tangent m (dpath (v_gamma v k)) (mu_at e v i) (fun _ => 0)))
        by (apply functional_extensionality; intro i; apply functional_extensionality; intro c; exact (Z i c)).
      apply U. intros j Hj. apply sumn_all_zero. intros i Hi.
      etransitivity; [|exact (Rmult_0_r (s_agent_weight s i))]. f_equal. exact (Z i (Single (Some j))).
  Qed.
End OneMarket.

Section Whole.
  Variables (solve : nat -> solver) (inverse : nat -> (nat -> nat -> R) -> (nat -> nat -> R) * bool) (ec : economy).
  Variables (delta_of : point -> nat -> nat -> R) (theta : nat -> parameter) (v : point) (n0 : nat) (keep : bool).
  Let p := theta n0.
  Let t := value_at v p.
  Hypothesis HS : exact_solve solve.
  Hypothesis HI : exact_inverse inverse.
  Hypothesis HF : refers ec.
  Hypothesis HG : gmm_ready ec.
  Hypothesis HR : forall s, (s < ec_T ec)%nat -> regular (ec_market ec s) v.
  Hypothesis HP : forall s, (s < ec_T ec)%nat -> in_theta ec (ec_market ec s) v p.
  Variable r : R.
  Hypothesis Hr : 0 < r.
  Hypothesis HC : forall y, Rabs (y - t) < r -> clean solve inverse ec delta_of keep (moved v p y).
  Hypothesis HT : clean solve inverse ec delta_of true v.
  Hypothesis HX : columns_ready solve ec delta_of v p.
  Hypothesis HL : costs_ready solve inverse ec delta_of v.
  Hypothesis HM : micro_ready ec delta_of v.

  Let dpath (s : nat) (y : R) : nat -> R := delta_of (moved v p y) s.

  Lemma dpath_own s : dpath s t = delta_of v s.
  Proof using. unfold dpath, t. rewrite moved_own. reflexivity. Qed.

  Lemma path_matched s : (s < ec_T ec)%nat -> forall y, Rabs (y - t) < r -> matched (ec_market ec s) (moved v p y) (dpath s y).
  Proof using HC. intros Hs y Hy. apply (HC y Hy s Hs). Qed.
  Lemma path_column s : (s < ec_T ec)%nat -> snd (xi_column solve (ec_market ec s) v (dpath s t) p) = false.
  Proof using HX. intros Hs. rewrite dpath_own. apply HX, Hs. Qed.
  Lemma path_eta s : ec_supply ec = true -> (s < ec_T ec)%nat ->
    forall y, Rabs (y - t) < r -> snd (eta_of solve (ec_market ec s) (moved v p y) (dpath s y) inverse keep) = false.
  Proof using HC. intros E Hs y Hy. apply (HC y Hy s Hs), E. Qed.
  Lemma path_inverse s : ec_supply ec = true -> (s < ec_T ec)%nat -> snd (kept_inverse (ec_market ec s) v (dpath s t) inverse) = false.
  Proof using HT. intros E Hs. rewrite dpath_own. exact (proj2 (HT s Hs) E). Qed.

  Lemma stacked_moves n : (n < rows ec)%nat ->
    derivable_pt_lim (fun y => stacked solve inverse ec delta_of keep (moved v p y) n) t (stacked_column solve inverse ec delta_of v p n).
  Proof using HS HI HF HR HP Hr HC HT HX HL.
    intro Hn. unfold stacked, stacked_column. destruct (Nat.ltb n (ec_N ec)) eqn:L.
    - apply Nat.ltb_lt in L. destruct (proj1 HF n L) as [Hs Hj]. cbv zeta. rewrite <- dpath_own.
      exact (xi_moves solve ec (ec_market ec (fst (ec_row ec n))) v p (dpath _) r HS (HR _ Hs) (HP _ Hs) Hr (path_matched _ Hs) (path_column _ Hs) _ Hj).
    - apply Nat.ltb_ge in L. unfold rows in Hn. destruct (ec_supply ec) eqn:E; [|lia].
      destruct (proj1 HF (n - ec_N ec)%nat ltac:(lia)) as [Hs Hj]. cbv zeta. rewrite <- dpath_own.
      refine (omega_moves solve ec (ec_market ec (fst (ec_row ec (n - ec_N ec)))) v p (dpath _) r HS (HR _ Hs) (HP _ Hs) Hr (path_matched _ Hs) (path_column _ Hs)
        inverse keep HI (path_eta _ E Hs) (path_inverse _ E Hs) (ec_costs_log ec) _ Hj _).
      intro F. rewrite dpath_own. exact (HL E F _ _ Hs Hj).
  Qed.

  Lemma stacked_same n : (n < rows ec)%nat -> stacked solve inverse ec delta_of keep v n = stacked solve inverse ec delta_of true v n.
  Proof using HS HI HF Hr HC HT.
    intro Hn. unfold stacked. destruct (Nat.ltb n (ec_N ec)) eqn:L; [reflexivity|].
    apply Nat.ltb_ge in L. unfold rows in Hn. destruct (ec_supply ec) eqn:E; [|lia].
    destruct (proj1 HF (n - ec_N ec)%nat ltac:(lia)) as [Hs Hj].
    assert (Q := eta_same solve (ec_market ec (fst (ec_row ec (n - ec_N ec)))) v p (dpath _) r HS Hr
      inverse keep HI (path_eta _ E Hs) (path_inverse _ E Hs) _ Hj).
    fold p t in Q. rewrite dpath_own in Q.
    unfold iv_tilde_costs, tilde_costs_at, tilde_costs_of. rewrite Q. reflexivity.
  Qed.

  Lemma part_at_moves q :
    sum_over (ec_parts ec q) (fun d => survey_denominator (snd d) (micro_cell (ec_market ec (fst d)) v (delta_of v (fst d)))) <> 0 ->
    derivable_pt_lim (fun y => part_value_at ec delta_of (moved v p y) q) t (part_column solve ec delta_of v p q).
  Proof using HS HF HR HP Hr HC HX.
    intro N.
    set (l := map (fun d => (snd d, (fun y i => micro_cell (ec_market ec (fst d)) (moved v p y) (dpath (fst d) y) i),
      micro_cell_tangent solve (ec_market ec (fst d)) v (dpath (fst d) t) p)) (ec_parts ec q) : list (survey * (R -> nat -> cell -> R) * (nat -> cell -> R))).
    assert (D : derivable_pt_lim (fun x => surveys_part (map (fun d => (fst (fst d), snd (fst d) x)) l)) t
      (surveys_part_jacobian (map (fun d => (fst (fst d), snd (fst d) t, snd d)) l))).
    { apply part_moves.
      - intros d Hd. unfold l in Hd. apply in_map_iff in Hd. destruct Hd as ([s sv] & <- & Hin). cbn [fst snd].
        destruct (proj2 HF q s sv Hin) as (Hs & SJ & SI & SW & SN).
        exact (cells_smooth solve ec (ec_market ec s) v p (dpath s) r HS (HR _ Hs) (HP _ Hs) Hr (path_matched _ Hs) (path_column _ Hs) sv SJ SI SW SN).
      - unfold l. rewrite MicroProofs.so_map. cbn [fst snd]. unfold t at 1. rewrite moved_own.
        erewrite MicroProofs.so_ext; [exact N|]. intros d _. cbv beta. rewrite dpath_own. reflexivity. }
    unfold l in D. rewrite map_map in D. cbn [fst snd] in D.
    eapply dlim_eq; [|eapply dlim_ext; [|exact D]].
    - unfold part_column. f_equal. apply map_ext. intros d. unfold t at 1. rewrite moved_own, dpath_own. reflexivity.
    - intro y. cbv beta. unfold part_value_at. f_equal. symmetry. rewrite map_map. reflexivity.
  Qed.

  Lemma micro_moves m : (m < MM ec)%nat ->
    derivable_pt_lim (fun y => micro_at ec delta_of (moved v p y) m) t (micro_column solve ec delta_of v p m).
  Proof using HS HF HR HP Hr HC HX HM.
    intro Hm. unfold micro_at, micro_column. cbv zeta. set (mo := nth m (ec_moments ec) no_moment).
    assert (Hin : In mo (ec_moments ec)) by (apply nth_In; exact Hm). destruct (HM mo Hin) as [G N].
    eapply dlim_eq; [|apply dlim_minus; [apply dlim_const|]].
    2:{ apply (G (fun y q => part_value_at ec delta_of (moved v p y) (nth q (mo_parts mo) O))
          (fun q => part_column solve ec delta_of v p (nth q (mo_parts mo) O)) t).
        - intros q Hq. unfold t. rewrite moved_own. reflexivity.
        - intros q Hq. apply part_at_moves, N, nth_In, Hq. }
    ring.
  Qed.

  Theorem gradient_exact :
    derivable_pt_lim (fun y => objective_at solve inverse ec delta_of keep (moved v p y)) t (gradient_at solve inverse ec delta_of theta v n0).
  Proof using HS HI HF HG HR HP Hr HC HT HX HL HM.
    destruct HG as (W1 & W2 & W3 & W4).
    assert (Dy : forall n, (n < rows ec)%nat -> derivable_pt_lim (fun y => absorbed ec (stacked solve inverse ec delta_of keep (moved v p y)) n) t
      (sumn 1 (fun q => absorbed ec (stacked_column solve inverse ec delta_of v p) n * 1))).
    { intros n Hn. eapply dlim_eq; [|apply (dlim_sumn (rows ec) (fun k y => ec_absorb ec n k * stacked solve inverse ec delta_of keep (moved v p y) k) t
        (fun k => ec_absorb ec n k * stacked_column solve inverse ec delta_of v p k))].
      - unfold absorbed. cbn [sumn]. ring.
      - intros k Hk. apply dlim_scal, stacked_moves, Hk. }
    assert (Dm : forall m, (m < MM ec)%nat -> derivable_pt_lim (fun y => micro_at ec delta_of (moved v p y) m) t
      (sumn 1 (fun q => micro_column solve ec delta_of v p m * 1))).
    { intros m Hm. eapply dlim_eq; [|apply micro_moves, Hm]. cbn [sumn]. ring. }
    assert (D := concentrated_gradient (ec_scale ec) (ec_N ec) (rows ec) (ec_MI ec) (MM ec) (ec_K ec) 1 (ec_X ec) (ec_Z ec) (ec_W ec) (ec_A ec)
      (fun n y => absorbed ec (stacked solve inverse ec delta_of keep (moved v p y)) n) (fun m y => micro_at ec delta_of (moved v p y) m)
      (fun n _ => absorbed ec (stacked_column solve inverse ec delta_of v p) n) (fun m _ => micro_column solve ec delta_of v p m) (fun _ => 1) t
      W1 W2 W3 Dy Dm).
    eapply dlim_eq; [|exact D]. cbv beta. unfold gradient_at, gmm_gradient_at. cbn [sumn]. rewrite Rplus_0_l, Rmult_1_r. f_equal. f_equal.
    apply sumn_ext. intros i Hi. f_equal.
    - unfold mean_G, stack_moments. destruct (Nat.ltb i (ec_MI ec)) eqn:L; [|reflexivity]. apply Nat.ltb_lt in L.
      unfold iv_moment, absorbed. f_equal.
      transitivity (sumn (rows ec) (fun k => sumn (rows ec) (fun n => ec_Z ec n i * ec_absorb ec n k) * stacked_column solve inverse ec delta_of v p k)).
      + rewrite (sumn_ext (rows ec) _ (fun n => sumn (rows ec) (fun k => ec_Z ec n i * ec_absorb ec n k * stacked_column solve inverse ec delta_of v p k)))
          by (intros n _; rewrite <- sumn_scal; apply sumn_ext; intros; ring).
        rewrite sumn_swap. apply sumn_ext. intros k _. rewrite <- sumn_scal_r. reflexivity.
      + apply sumn_ext. intros k Hk. rewrite W4 by assumption. reflexivity.
    - apply sumn_ext. intros j _. f_equal. unfold moments_at. unfold t. rewrite moved_own.
      replace (absorbed ec (stacked solve inverse ec delta_of keep v)) with (absorbed ec (stacked solve inverse ec delta_of true v)); [reflexivity|].
      apply functional_extensionality; intro n. unfold absorbed. apply sumn_ext. intros k Hk. rewrite stacked_same by exact Hk. reflexivity.
  Qed.
End Whole.

Lemma objectives_agree solve inverse ec delta_of v :
  exact_solve solve -> exact_inverse inverse -> refers ec ->
  clean solve inverse ec delta_of false v -> clean solve inverse ec delta_of true v ->
  objective_at solve inverse ec delta_of false v = objective_at solve inverse ec delta_of true v.
Proof.
  intros HS HI HF HC HT.
  assert (Q : forall n, (n < rows ec)%nat -> stacked solve inverse ec delta_of false v n = stacked solve inverse ec delta_of true v n).
  { intros n Hn. unfold stacked. destruct (Nat.ltb n (ec_N ec)) eqn:L; [reflexivity|].
    apply Nat.ltb_ge in L. unfold rows in Hn. destruct (ec_supply ec) eqn:E; [|lia].
    destruct (proj1 HF (n - ec_N ec)%nat ltac:(lia)) as [Hs Hj].
    assert (Q := eta_same solve (ec_market ec (fst (ec_row ec (n - ec_N ec)))) v (Gamma 0) (fun _ => delta_of v (fst (ec_row ec (n - ec_N ec)))) 1 HS ltac:(lra)
      inverse false HI (fun y _ => proj2 (HC _ Hs) E) (proj2 (HT _ Hs) E) _ Hj).
    unfold iv_tilde_costs, tilde_costs_at, tilde_costs_of. rewrite Q. reflexivity. }
  unfold objective_at, moments_at.
  replace (absorbed ec (stacked solve inverse ec delta_of false v)) with (absorbed ec (stacked solve inverse ec delta_of true v)); [reflexivity|].
  apply functional_extensionality; intro n. unfold absorbed. apply sumn_ext. intros k Hk. rewrite Q by exact Hk. reflexivity.
Qed.
