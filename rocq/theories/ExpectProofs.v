From Coq Require Import Reals List Bool Arith Lra Lia ZArith.
From Verif Require Import ProgressModel ProgressSpec ProgressProofs Base DemandSpec DemandModel DemandProofs DemandShares SupplyModel SupplySpec SupplyProofs DerivModel DerivMore
  MicroModel NestModel GradModel GradSpec GradProofs EndoModel EndoSpec EndoProofs FltModel ResultsModel ResultsProofs ExpectModel ExpectSpec.
Import ListNotations.
Local Open Scope R_scope.

Lemma shares_not_in S k : shares_in S = false -> (k < sK3 S)%nat -> uses (sX3 S k) = false.
Proof.
  intros H Hk. unfold shares_in in H. destruct (uses (sX3 S k)) eqn:E; [|reflexivity].
  rewrite <- H. symmetry. apply existsb_exists. exists k. split; [apply in_seq; lia|exact E].
Qed.

Lemma equilibrium_only expected S it : price_source_of expected S it = Some EquilibriumPrices -> shares_in S = false /\ (0 < sK3 S)%nat.
Proof.
  unfold price_source_of. destruct expected as [[[|] p]|]; try discriminate.
  destruct (Nat.ltb_spec 0 (sK3 S)) as [L|L]; cbn [andb]; [|discriminate].
  destruct (shares_in S); cbn [negb]; [discriminate|]. intros _. split; [reflexivity|exact L].
Qed.

Lemma prodn_one n f : (forall k, (k < n)%nat -> f k = 1) -> prodn n f = 1.
Proof. induction n as [|n IH]; intro H; cbn; [reflexivity|]. rewrite IH, H by (intros; try apply H; lia). ring. Qed.
Lemma unchanged_costs S shares0 costs shares : shares_in S = false -> forall j, update_costs S shares0 costs shares j = costs j.
Proof.
  intros H j. unfold update_costs. destruct (stype S).
  - rewrite (sumn_ext _ _ (fun _ => 0)); [rewrite sumn_zero; ring|]. intros k Hk. rewrite (shares_not_in S k H Hk). reflexivity.
  - rewrite prodn_one; [ring|]. intros k Hk. rewrite (shares_not_in S k H Hk). reflexivity.
Qed.
Lemma price_contraction_costs M O c c' x j : (forall k, c k = c' k) -> price_contraction M O c x j = price_contraction M O c' x j.
Proof.
  intro H. unfold price_contraction, zeta. rewrite (H j). f_equal. f_equal. f_equal. apply sumn_ext. intros k _. rewrite (H k). reflexivity.
Qed.
Lemma constant_costs_same M O S shares0 costs x j : shares_in S = false ->
  endogenous_contraction true M O S shares0 costs x j = endogenous_contraction false M O S shares0 costs x j.
Proof.
  intro H. unfold endogenous_contraction. apply price_contraction_costs. intro k. unfold costs_given. symmetry. apply unchanged_costs. exact H.
Qed.

Section Facts.
  Variable routine : ((nat -> R) -> nat -> R) -> (nat -> R) -> (nat -> R) * bool.
  Variables (e : economy_market) (S : supply) (v : point) (delta tilde fitted : nat -> R) (source : price_source) (constant : bool).
  Let M := market_of e v delta.
  Let x := fst (realized_prices routine e S v delta tilde fitted source constant).
  Let d' := realized_delta routine e S v delta tilde fitted source constant.
  Let s' := realized_shares routine e S v delta tilde fitted source constant.
  Let e' := realized_market routine e S v delta tilde fitted source constant.
  Let J := products e.
  Local Notation on := (market_on M x d').

  Lemma realized_is : market_of e' v d' = on.
  Proof using. reflexivity. Qed.

  Lemma realized_errors errors :
    honest (fK1 (e_market e)) (fX1 (e_market e)) ->
    explained J (fK1 (e_market e)) (characteristics (fX1 (e_market e)) (var0 (e_market e))) (v_beta v) errors delta ->
    explained J (fK1 (e_market e)) (characteristics (fX1 (e_market e)) x) (v_beta v) errors d'.
  Proof using.
    intros Hn H j Hj. unfold d', realized_delta, update_delta. fold x. cbn [delta0 market_of fK1 fX1 fbeta var0].
    rewrite (H j Hj). unfold characteristics.
    rewrite (sumn_ext (fK1 (e_market e)) (fun k => if uses _ then _ else 0)
      (fun k => ev (fX1 (e_market e) k) j (x j) * v_beta v k - ev (fX1 (e_market e) k) j (var0 (e_market e) j) * v_beta v k)).
    - rewrite sumn_minus. ring.
    - intros k Hk. destruct (uses (fX1 (e_market e) k)) eqn:U; [ring|]. rewrite (Hn k j (x j) (var0 (e_market e) j) Hk U). ring.
  Qed.

  Lemma realized_regular : regular e v -> regular e' v.
  Proof using.
    intros [H1 H2 H3 H4 H5]. constructor; try assumption. intros j k. unfold e', realized_market, overridden. cbn [e_tastes r_X2 overridden_tastes e_market fX2 var0 X2_0].
    unfold overridden_X2. fold x. destruct (uses (fX2 (e_market e) k)); reflexivity.
  Qed.

  Lemma realized_mu : regular e v -> forall i j, mu_at e' v i j = update_mu M x i j.
  Proof using.
    intros H i j. unfold mu_at, mu_of, update_mu, compute_mu. cbn [market_of fK2 fX2 X2_0 fcoef M]. rewrite (reg_K2 _ _ H).
    unfold e', realized_market, overridden, overridden_tastes. cbn [e_tastes r_K2 r_X2].
    apply sumn_ext. intros k _. unfold overridden_X2. fold x. reflexivity.
  Qed.

  Lemma realized_matched : regular e v -> matched e' v d'.
  Proof using.
    intros H j Hj. cbv zeta. rewrite realized_is. cbn [fI fw fm market_on].
    change (e_shares e' j) with (s' j). unfold s', realized_shares, shares_at. fold x.
    change (update_delta (market_of e v delta) x) with d'.
    apply sumn_ext. intros i Hi. f_equal.
    replace (mu_at e' v) with (update_mu M x); [reflexivity|].
    apply FunctionalExtensionality.functional_extensionality. intro a. apply FunctionalExtensionality.functional_extensionality. intro b. symmetry. apply realized_mu, H.
  Qed.

  Lemma in_theta_realized ec p : in_theta ec e v p -> in_theta ec e' v p.
  Proof using. destruct p as [[]| | |]; exact (fun H => H). Qed.

  (** Supply. *)
  Variables (solve : nat -> solver) (inverse : nat -> (nat -> nat -> R) -> (nat -> nat -> R) * bool).
  Hypothesis HS : exact_solve solve.
  Hypothesis HI : exact_inverse inverse.

  Lemma realized_eta keep : valid_market (fm M) -> competition M (e_ownership e) x ->
    fixed J (endogenous_contraction constant M (e_ownership e) S (e_shares e) (exponentiated S tilde)) x ->
    snd (eta_of solve e' v d' inverse keep) = false ->
    forall j, (j < J)%nat -> fst (eta_of solve e' v d' inverse keep) j
      = x j - simulated_costs constant M S (e_shares e) (exponentiated S tilde) x j.
  Proof using HS HI.
    intros V C F B j Hj.
    assert (E := eta_solves solve e' HS inverse keep HI v d' B).
    assert (PA : price_averse M x) by (split; [apply C|split; [apply C|split; [apply C|apply C]]]).
    assert (CO : cooperation (mJ (fm M)) (e_ownership e)).
    { split; [apply C|]. intros a b Ha Hb. exact (proj1 (comp_cross _ _ _ C a b Ha Hb)). }
    set (c := costs_given constant M S (e_shares e) (exponentiated S tilde) x).
    assert (M1 : markup_equation (mJ (fm M)) (e_ownership e) (shares_jacobian M x) (shares_at M x) (fun j => x j - c j)).
    { apply zeta_fixed_iff; [intros a b Ha Hb; exact (proj2 (comp_cross _ _ _ C a b Ha Hb))|apply C| |exact F]. intros k Hk.
      apply Rlt_not_eq. apply lamda_negative; [exact V|exact Hk|apply PA|apply PA|]. intros i Hi. apply PA; assumption. }
    assert (M3 : markup_equation (mJ (fm M)) (e_ownership e) (shares_jacobian M x) (shares_at M x) (fst (eta_of solve e' v d' inverse keep))).
    { intros k Hk. specialize (E k Hk). change (e_shares e' k) with (shares_at M x k) in E. rewrite <- E.
      rewrite realized_is. change (var0 (e_market e')) with x. change (e_ownership e') with (e_ownership e). 
      change (products e') with (mJ (fm M)). rewrite <- sumn_plus. apply sumn_all_zero. intros l Hl. rewrite capital_delta_jacobian.
      rewrite market_on_jacobian by (try assumption; intros; reflexivity). ring. }
    assert (Q := markups_unique M (e_ownership e) x _ _ _ V PA CO M1 M3 j Hj). cbv beta in Q. rewrite <- Q. unfold c, costs_given, simulated_costs, simulated_shares.
    destruct constant; reflexivity.
  Qed.

  (** Recovered costs, linear or log-linear. *)
  Lemma realized_tilde keep : valid_market (fm M) -> competition M (e_ownership e) x ->
    fixed J (endogenous_contraction constant M (e_ownership e) S (e_shares e) (exponentiated S tilde)) x ->
    snd (eta_of solve e' v d' inverse keep) = false -> honest (sK3 S) (sX3 S) ->
    forall errors, explained J (sK3 S) (characteristics (sX3 S) (e_shares e)) (sgamma S) errors tilde ->
    forall j, (j < J)%nat -> tilde_costs_at solve e' v d' inverse (logged S) keep j
      = sumn (sK3 S) (fun k => characteristics (sX3 S) (if constant then e_shares e else s') j k * sgamma S k) + errors j.
  Proof using HS HI.
    intros V C F B Hn errors HE j Hj. unfold tilde_costs_at, tilde_costs_of.
    rewrite (realized_eta keep V C F B j Hj). change (var0 (market_of e' v d') j) with (x j).
    replace (x j - (x j - simulated_costs constant M S (e_shares e) (exponentiated S tilde) x j))
      with (simulated_costs constant M S (e_shares e) (exponentiated S tilde) x j) by ring.
    assert (G : simulated_costs constant M S (e_shares e) (exponentiated S tilde) x j
      = initial_costs S (if constant then e_shares e else s') errors j).
    { assert (I0 : exponentiated S tilde j = initial_costs S (e_shares e) errors j).
      { unfold exponentiated, initial_costs. rewrite (HE j Hj). reflexivity. }
      unfold simulated_costs. destruct constant; [exact I0|]. rewrite <- (updated_costs S (e_shares e) errors s' j Hn).
      unfold update_costs. rewrite I0. reflexivity. }
    rewrite G. unfold initial_costs, logged, characteristics. destruct (stype S); [reflexivity|]. apply ln_exp.
  Qed.

  (** Without shares in X3 or if costs are updated, errors are those that were there. *)
  Lemma realized_omega keep : valid_market (fm M) -> competition M (e_ownership e) x ->
    fixed J (endogenous_contraction constant M (e_ownership e) S (e_shares e) (exponentiated S tilde)) x ->
    snd (eta_of solve e' v d' inverse keep) = false -> honest (sK3 S) (sX3 S) -> (constant = true -> shares_in S = false) ->
    forall errors, explained J (sK3 S) (characteristics (sX3 S) (e_shares e)) (sgamma S) errors tilde ->
    explained J (sK3 S) (characteristics (sX3 S) s') (sgamma S) errors (tilde_costs_at solve e' v d' inverse (logged S) keep).
  Proof using HS HI.
    intros V C F B Hn Hc errors HE j Hj. rewrite (realized_tilde keep V C F B Hn errors HE j Hj).
    f_equal. apply sumn_ext. intros k Hk. f_equal. destruct constant; [|reflexivity].
    unfold characteristics. apply Hn; [exact Hk|]. apply (shares_not_in S k); auto.
  Qed.

  (** Jacobians. *)
  Variables (ec : economy) (p : parameter) (dpath : R -> nat -> R) (r : R).
  Hypothesis HR : regular e v.
  Hypothesis HP : in_theta ec e v p.
  Hypothesis Hr : 0 < r.
  Hypothesis Hown : dpath (value_at v p) = d'.
  Hypothesis Hm : forall y, Rabs (y - value_at v p) < r -> matched e' (moved v p y) (dpath y).
  Hypothesis Hx : snd (xi_column solve e' v d' p) = false.

  Lemma realized_xi_moves j : (j < J)%nat ->
    derivable_pt_lim (fun y => dpath y j - sumn (ec_K1 ec) (fun k => if ec_eliminated_beta ec k then 0 else e_X1 e' j k * v_beta (moved v p y) k))
      (value_at v p) (realized_xi_column routine e S v delta tilde fitted source constant solve p j).
  Proof using HS HR HP Hr Hown Hm Hx.
    intro Hj. unfold realized_xi_column. fold e' d'. rewrite <- Hown. rewrite <- Hown in Hx.
    apply xi_moves with (r := r); [exact HS|exact (realized_regular HR)|exact (in_theta_realized ec p HP)|exact Hr|exact Hm|exact Hx|exact Hj].
  Qed.

  Variable keep : bool.
  Hypothesis He : forall y, Rabs (y - value_at v p) < r -> snd (eta_of solve e' (moved v p y) (dpath y) inverse keep) = false.
  Hypothesis Hk : snd (kept_inverse e' v d' inverse) = false.

  Lemma realized_omega_moves j : (j < J)%nat ->
    (logged S = true -> tilde_costs_at solve e' v d' inverse true true j = tilde j /\ fst (eta_of solve e' v d' inverse true) j < x j) ->
    derivable_pt_lim (fun y => tilde_costs_at solve e' (moved v p y) (dpath y) inverse (logged S) keep j
      - sumn (ec_K3 ec) (fun k => if ec_eliminated_gamma ec k then 0 else e_X3 e' j k * v_gamma (moved v p y) k))
      (value_at v p) (realized_omega_column routine e S v delta tilde fitted source constant solve inverse p j).
  Proof using HS HI HR HP Hr Hown Hm Hx He Hk.
    intros Hj Hc.
    assert (D : derivable_pt_lim (fun y => tilde_costs_at solve e' (moved v p y) (dpath y) inverse (logged S) keep j
      - sumn (ec_K3 ec) (fun k => if ec_eliminated_gamma ec k then 0 else e_X3 e' j k * v_gamma (moved v p y) k))
      (value_at v p) (omega_column solve e' v d' inverse (logged S) p j)).
    { rewrite <- Hown. rewrite <- Hown in Hx, Hk, Hc.
      apply omega_moves with (r := r); [exact HS|exact (realized_regular HR)|exact (in_theta_realized ec p HP)|exact Hr|exact Hm|exact Hx|exact HI|exact He|exact Hk|exact Hj|].
      intro L. exact (proj2 (Hc L)). }
    replace (realized_omega_column routine e S v delta tilde fitted source constant solve inverse p j)
      with (omega_column solve e' v d' inverse (logged S) p j); [exact D|].
    unfold omega_column, realized_omega_column. fold e' d'. fold (logged S). destruct p as [q|q|q|q]; try reflexivity;
      unfold omega_by_theta; destruct (logged S); try reflexivity; rewrite (proj1 (Hc eq_refl)); reflexivity.
  Qed.
End Facts.

Lemma with_error_explained J K X b errors draw y :
  explained J K X b errors y -> explained J K X b draw (with_error y errors draw).
Proof. intros H j Hj. unfold with_error. rewrite (H j Hj). ring. Qed.
Lemma with_linear_explained J K X b c errors y :
  explained J K X b errors y -> explained J K X c errors (with_linear K X b c y).
Proof.
  intros H j Hj. unfold with_linear. rewrite (H j Hj).
  rewrite (sumn_ext K (fun k => X j k * (c k - b k)) (fun k => X j k * c k - X j k * b k)) by (intros; ring). rewrite sumn_minus. ring.
Qed.

(** Costs that are recovered from equilibrium prices are those that were drawn. *)
Lemma equilibrium_tilde routine e S v delta tilde fitted constant expected it solve inverse :
  let x := fst (realized_prices routine e S v delta tilde fitted EquilibriumPrices constant) in
  let e' := realized_market routine e S v delta tilde fitted EquilibriumPrices constant in
  let d' := realized_delta routine e S v delta tilde fitted EquilibriumPrices constant in
  exact_solve solve -> exact_inverse inverse -> price_source_of expected S it = Some EquilibriumPrices ->
  valid_market (fm (market_of e v delta)) -> competition (market_of e v delta) (e_ownership e) x ->
  fixed (products e) (endogenous_contraction constant (market_of e v delta) (e_ownership e) S (e_shares e) (exponentiated S tilde)) x ->
  forall keep, snd (eta_of solve e' v d' inverse keep) = false ->
  forall j, (j < products e)%nat ->
    tilde_costs_at solve e' v d' inverse (logged S) keep j = tilde j /\
    x j - fst (eta_of solve e' v d' inverse keep) j = exponentiated S tilde j.
Proof.
  intros x e' d' HS HI Hp V C F keep B j Hj. destruct (equilibrium_only expected S it Hp) as [Hs _].
  assert (E := realized_eta routine e S v delta tilde fitted EquilibriumPrices constant solve inverse HS HI keep V C F B j Hj).
  fold x e' d' in E.
  assert (G : simulated_costs constant (market_of e v delta) S (e_shares e) (exponentiated S tilde) x j = exponentiated S tilde j).
  { unfold simulated_costs. destruct constant; [reflexivity|]. apply unchanged_costs. exact Hs. }
  rewrite G in E. split; [|rewrite E; ring]. unfold tilde_costs_at, tilde_costs_of. change (var0 (market_of e' v d') j) with (x j). rewrite E.
  replace (x j - (x j - exponentiated S tilde j)) with (exponentiated S tilde j) by ring.
  unfold exponentiated, logged. destruct (stype S); [reflexivity|]. apply ln_exp.
Qed.

Lemma same_prices routine e S v delta tilde fitted source expected it :
  price_source_of expected S it = Some source ->
  realized_prices routine e S v delta tilde fitted source true = realized_prices routine e S v delta tilde fitted source false.
Proof.
  intro H. unfold realized_prices. destruct source as [p| |]; try reflexivity.
  f_equal. apply FunctionalExtensionality.functional_extensionality. intro y. apply FunctionalExtensionality.functional_extensionality. intro j.
  apply constant_costs_same. exact (proj1 (equilibrium_only expected S it H)).
Qed.

Lemma reverted_finite realized estimated : ffin estimated = true -> ffin (reverted realized estimated) = true.
Proof. intro H. unfold reverted. destruct (ffin realized) eqn:E; [exact E|exact H]. Qed.
Lemma reverted_same realized estimated : ffin realized = true -> reverted realized estimated = realized.
Proof. intro H. unfold reverted. rewrite H. reflexivity. Qed.
Lemma reported_iff rows columns realized : reversion_reported rows columns realized = true <->
  exists n p, (n < rows)%nat /\ (p < columns)%nat /\ ffin (realized n p) = false.
Proof.
  unfold reversion_reported. rewrite existsb_exists. split.
  - intros [n [Hn H]]. apply existsb_exists in H as [p [Hp H]]. exists n, p. apply in_seq in Hn. apply in_seq in Hp. apply negb_true_iff in H. repeat split; try lia; assumption.
  - intros [n [p [Hn [Hp H]]]]. exists n. split; [apply in_seq; lia|]. apply existsb_exists. exists p. split; [apply in_seq; lia|]. rewrite H. reflexivity.
Qed.
Lemma average_same draws x : (0 < draws)%nat -> accumulate draws (fun _ => x) draws = x.
Proof.
  intro H. rewrite accumulate_sum, sumn_const. assert (0 < INR draws) by (apply lt_0_INR; exact H). field. lra.
Qed.
