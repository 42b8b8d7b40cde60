(** C122, C123 and C124: realizations of data for optimal instruments and for bootstrapping. *)
From Coq Require Import Reals List Bool Arith Lra Lia ZArith FunctionalExtensionality.
From Verif Require Import ProgressModel ProgressSpec Base DemandSpec DemandModel DemandProofs DemandShares DemandDeriv SupplyModel SupplySpec SupplyProofs
  DerivModel GradModel GradSpec GradWitness EndoModel EndoSpec EndoProofs FltModel ResultsModel ExpectModel ExpectSpec ExpectProofs ExpectWitness.
Import ListNotations.
Local Open Scope R_scope.

(* ---------- C122 ---------- *)

(** Wherever prices come from, mean utilities of a realization are explained by characteristics at its prices and the errors that
    were drawn. *)
Theorem C122_structural_errors : forall routine e S v estimate errors draw tilde fitted source constant,
  honest (fK1 (e_market e)) (fX1 (e_market e)) ->
  explained (products e) (fK1 (e_market e)) (characteristics (fX1 (e_market e)) (var0 (e_market e))) (v_beta v) errors estimate ->
  let delta := with_error estimate errors draw in
  explained (products e) (fK1 (e_market e))
    (characteristics (fX1 (e_market e)) (fst (realized_prices routine e S v delta tilde fitted source constant))) (v_beta v) draw
    (realized_delta routine e S v delta tilde fitted source constant).
Proof.
  intros routine e S v estimate errors draw tilde fitted source constant Hn H delta.
  apply realized_errors; [exact Hn|]. apply with_error_explained. exact H.
Qed.
Print Assumptions C122_structural_errors.

(** Prices that are given, or fitted, are used as they are, and are not reported as a failure to converge. *)
Theorem C122_prices_used : forall routine e S v delta tilde fitted constant,
  (forall p, realized_prices routine e S v delta tilde fitted (GivenPrices p) constant = (p, true)) /\
  realized_prices routine e S v delta tilde fitted FittedPrices constant = (fitted, true).
Proof. split; reflexivity. Qed.
Print Assumptions C122_prices_used.

(** Jacobians are computed from data of the realization: its prices and shares, and all characteristics at these. *)
Theorem C122_data : forall routine e S v delta tilde fitted source constant,
  honest (fK2 (e_market e)) (fX2 (e_market e)) ->
  (forall k, (k < fK2 (e_market e))%nat -> forall j, X2_0 (e_market e) j k = ev (fX2 (e_market e) k) j (var0 (e_market e) j)) ->
  let x := fst (realized_prices routine e S v delta tilde fitted source constant) in
  let e' := realized_market routine e S v delta tilde fitted source constant in
  var0 (e_market e') = x /\ e_shares e' = shares_at (market_of e v delta) x /\ e_ownership e' = e_ownership e /\
  (forall j k, e_X1 e' j k = characteristics (fX1 (e_market e)) x j k) /\
  (forall j k, (k < fK2 (e_market e))%nat -> r_X2 (e_tastes e') j k = characteristics (fX2 (e_market e)) x j k) /\
  (forall j k, e_X3 e' j k = characteristics (sX3 S) (e_shares e') j k).
Proof.
  intros routine e S v delta tilde fitted source constant Hn H0 x e'.
  do 4 (split; [reflexivity|]). split; [|reflexivity].
  intros j k Hk. unfold e', realized_market, overridden, overridden_tastes. cbn [e_tastes r_X2]. unfold overridden_X2, characteristics.
  fold x. destruct (uses (fX2 (e_market e) k)) eqn:U; [reflexivity|]. rewrite (H0 k Hk j). apply (Hn k j _ _ Hk U).
Qed.
Print Assumptions C122_data.

(** Shares of a realization are those that the model predicts at its prices and mean utilities. *)
Theorem C122_shares : forall routine e S v delta tilde fitted source constant, regular e v ->
  matched (realized_market routine e S v delta tilde fitted source constant) v (realized_delta routine e S v delta tilde fitted source constant) /\
  regular (realized_market routine e S v delta tilde fitted source constant) v.
Proof. intros. split; [apply realized_matched|apply realized_regular]; assumption. Qed.
Print Assumptions C122_shares.

(** What is averaged for the demand side is the derivative of xi at the realization, for data held fixed: [dpath y] are mean
    utilities that match shares of the realization when the parameter is y, and X1 is that of the realization. *)
Theorem C122_demand_jacobian : forall routine e S v delta tilde fitted source constant solve ec p dpath r,
  let e' := realized_market routine e S v delta tilde fitted source constant in
  let d' := realized_delta routine e S v delta tilde fitted source constant in
  exact_solve solve -> regular e v -> in_theta ec e v p -> 0 < r -> dpath (value_at v p) = d' ->
  (forall y, Rabs (y - value_at v p) < r -> matched e' (moved v p y) (dpath y)) ->
  snd (xi_column solve e' v d' p) = false ->
  forall j, (j < products e)%nat ->
  derivable_pt_lim (fun y => dpath y j - sumn (ec_K1 ec) (fun k => if ec_eliminated_beta ec k then 0 else e_X1 e' j k * v_beta (moved v p y) k))
    (value_at v p) (realized_xi_column routine e S v delta tilde fitted source constant solve p j).
Proof.
  intros routine e S v delta tilde fitted source constant solve ec p dpath r e' d' HS HR HP Hr Ho Hm Hx j Hj.
  apply realized_xi_moves with (r := r); assumption.
Qed.
Print Assumptions C122_demand_jacobian.

(** With equilibrium prices to which the routine has converged, costs that the first-order conditions imply are the drawn ones. *)
Theorem C122_equilibrium_costs : forall routine e S v delta tilde fitted constant expected it solve inverse,
  let x := fst (realized_prices routine e S v delta tilde fitted EquilibriumPrices constant) in
  let e' := realized_market routine e S v delta tilde fitted EquilibriumPrices constant in
  let d' := realized_delta routine e S v delta tilde fitted EquilibriumPrices constant in
  exact_solve solve -> exact_inverse inverse -> price_source_of expected S it = Some EquilibriumPrices ->
  valid_market (fm (market_of e v delta)) -> competition (market_of e v delta) (e_ownership e) x ->
  fixed (products e) (endogenous_contraction constant (market_of e v delta) (e_ownership e) S (e_shares e) (exponentiated S tilde)) x ->
  forall keep, snd (eta_of solve e' v d' inverse keep) = false ->
  forall j, (j < products e)%nat ->
    tilde_costs_at solve e' v d' inverse (logged S) keep j = tilde j /\
    x j - fst (eta_of solve e' v d' inverse keep) j = exponentiated S tilde j.
Proof. exact equilibrium_tilde. Qed.
Print Assumptions C122_equilibrium_costs.

(** What is averaged for the supply side is the derivative of omega at the realization if costs are linear or if prices are equilibrium
    prices. *)
Theorem C122_supply_jacobian : forall routine e S v delta tilde fitted source constant expected it solve inverse ec p dpath r keep,
  let x := fst (realized_prices routine e S v delta tilde fitted source constant) in
  let e' := realized_market routine e S v delta tilde fitted source constant in
  let d' := realized_delta routine e S v delta tilde fitted source constant in
  exact_solve solve -> exact_inverse inverse -> regular e v -> in_theta ec e v p -> 0 < r -> dpath (value_at v p) = d' ->
  (forall y, Rabs (y - value_at v p) < r -> matched e' (moved v p y) (dpath y)) ->
  snd (xi_column solve e' v d' p) = false ->
  (forall y, Rabs (y - value_at v p) < r -> snd (eta_of solve e' (moved v p y) (dpath y) inverse keep) = false) ->
  snd (kept_inverse e' v d' inverse) = false ->
  price_source_of expected S it = Some source ->
  (stype S = LinearCosts \/
   source = EquilibriumPrices /\ valid_market (fm (market_of e v delta)) /\ competition (market_of e v delta) (e_ownership e) x /\
   fixed (products e) (endogenous_contraction constant (market_of e v delta) (e_ownership e) S (e_shares e) (exponentiated S tilde)) x) ->
  forall j, (j < products e)%nat ->
  derivable_pt_lim (fun y => tilde_costs_at solve e' (moved v p y) (dpath y) inverse (logged S) keep j
    - sumn (ec_K3 ec) (fun k => if ec_eliminated_gamma ec k then 0 else e_X3 e' j k * v_gamma (moved v p y) k))
    (value_at v p) (realized_omega_column routine e S v delta tilde fitted source constant solve inverse p j).
Proof.
  intros routine e S v delta tilde fitted source constant expected it solve inverse ec p dpath r keep x e' d' HS HI HR HP Hr Ho Hm Hx He Hk Hp Hc j Hj.
  apply realized_omega_moves with (r := r); try assumption. intro HL. destruct Hc as [Hc|[-> [V [C F]]]].
  - unfold logged in HL. rewrite Hc in HL. discriminate.
  - destruct (equilibrium_tilde routine e S v delta tilde fitted constant expected it solve inverse HS HI Hp V C F true Hk j Hj) as [E1 E2].
    rewrite HL in E1. split; [exact E1|]. unfold exponentiated in E2. unfold logged in HL. destruct (stype S); [discriminate|].
    assert (P := exp_pos (tilde j)). fold x e' d' in E2. fold x e' d'. lra.
Qed.
Print Assumptions C122_supply_jacobian.

(** With log costs and prices that the user gives (or fitted ones), it is not: costs that were drawn are used instead of those that
    prices of the realization imply. *)
Theorem C122_given_prices_refuted :
  exists routine e S v delta tilde fitted source constant expected it solve inverse ec p dpath r keep,
  let x := fst (realized_prices routine e S v delta tilde fitted source constant) in
  let e' := realized_market routine e S v delta tilde fitted source constant in
  let d' := realized_delta routine e S v delta tilde fitted source constant in
  exact_solve solve /\ exact_inverse inverse /\ regular e v /\ in_theta ec e v p /\ 0 < r /\ dpath (value_at v p) = d' /\
  (forall y, Rabs (y - value_at v p) < r -> matched e' (moved v p y) (dpath y)) /\
  snd (xi_column solve e' v d' p) = false /\
  (forall y, Rabs (y - value_at v p) < r -> snd (eta_of solve e' (moved v p y) (dpath y) inverse keep) = false) /\
  snd (kept_inverse e' v d' inverse) = false /\
  price_source_of expected S it = Some source /\
  (forall j, (j < products e)%nat -> fst (eta_of solve e' v d' inverse true) j < x j) /\
  ~ (forall j, (j < products e)%nat ->
     derivable_pt_lim (fun y => tilde_costs_at solve e' (moved v p y) (dpath y) inverse (logged S) keep j
       - sumn (ec_K3 ec) (fun k => if ec_eliminated_gamma ec k then 0 else e_X3 e' j k * v_gamma (moved v p y) k))
       (value_at v p) (realized_omega_column routine e S v delta tilde fitted source constant solve inverse p j)).
Proof.
  exists wx_routine, ex_market, (wx_supply LogCosts), (wx_point 1), (fun _ => 0), (fun _ => 0), (fun _ => 10), (GivenPrices (fun _ => 10)), true,
    (Some (true, fun _ => 10)), NoIteration, ex_solve, ex_inverse, ex_economy, wx_sigma, (fun _ _ => 0), 1, true.
  exact given_prices_fail.
Qed.
Print Assumptions C122_given_prices_refuted.

(** The number of draws is that of the argument, except for the default method, for which any argument means one draw. *)
Theorem C122_draws : forall m draws n, number_of_draws m draws = Some n <->
  m <> OtherMethod /\ ((m = Approximate /\ n = 1%nat) \/ (m <> Approximate /\ (0 < n)%nat /\ draws = AnInt (Z.of_nat n))).
Proof.
  intros m draws n. unfold number_of_draws, positive_int. split.
  - destruct m; try discriminate; [intro E; injection E as <-; split; [discriminate|left; split; reflexivity]| |];
      (destruct draws as [z|]; [|discriminate]); destruct (Z.ltb_spec z 1); try discriminate; intro E; injection E as <-;
      (split; [discriminate|right; split; [discriminate|split; [lia|f_equal; lia]]]).
  - intros [N [[-> ->]|[N2 [L ->]]]]; [reflexivity|]. destruct m; try congruence;
      (destruct (Z.ltb_spec (Z.of_nat n) 1); [lia|]; f_equal; lia).
Qed.
Print Assumptions C122_draws.

(** Equilibrium prices are computed exactly if none are given, there is a supply side, and X3 does not include shares. *)
Theorem C122_price_sources : forall expected S it source, price_source_of expected S it = Some source ->
  (source = EquilibriumPrices <-> expected = None /\ (0 < sK3 S)%nat /\ forall k, (k < sK3 S)%nat -> uses (sX3 S k) = false) /\
  (forall p, source = GivenPrices p <-> expected = Some (true, p)).
Proof.
  intros expected S it source H. split.
  - split.
    + intros ->. destruct (equilibrium_only _ _ _ H) as [Hs Hk]. split; [|split; [exact Hk|intros k Hkk; exact (shares_not_in S k Hs Hkk)]].
      destruct expected as [[[|] p]|]; [discriminate H|discriminate H|reflexivity].
    + intros [-> [Hk Hu]]. unfold price_source_of in H. apply Nat.ltb_lt in Hk. rewrite Hk in H.
      assert (Hs : shares_in S = false).
      { unfold shares_in. apply not_true_is_false. intro Hx. apply existsb_exists in Hx as [k [Hin Hx]]. apply in_seq in Hin. rewrite Hu in Hx by lia. discriminate. }
      rewrite Hs in H. cbn in H. unfold validated in H. destruct it as [|[|]|]; congruence.
  - intro p. split.
    + intros ->. unfold price_source_of in H. destruct expected as [[[|] q]|]; [congruence|discriminate|].
      destruct (Nat.ltb 0 (sK3 S) && negb (shares_in S))%bool; [unfold validated in H; destruct it as [|[|]|]; discriminate|discriminate].
    + intros ->. cbn in H. congruence.
Qed.
Print Assumptions C122_price_sources.

(** Arguments are refused if given prices do not have as many rows as products, or if equilibrium prices are to be computed
    with something that is not an iteration configuration, or with one that asks for an analytic Jacobian. *)
Theorem C122_refusals : forall expected S it, price_source_of expected S it = None <->
  (exists p, expected = Some (false, p)) \/
  (expected = None /\ (0 < sK3 S)%nat /\ (forall k, (k < sK3 S)%nat -> uses (sX3 S k) = false) /\ (it = NotIteration \/ it = AnIteration true)).
Proof.
  intros expected S it.
  assert (B : (Nat.ltb 0 (sK3 S) && negb (shares_in S))%bool = true <-> (0 < sK3 S)%nat /\ forall k, (k < sK3 S)%nat -> uses (sX3 S k) = false).
  { rewrite andb_true_iff, Nat.ltb_lt. split; intros [Hk Hs]; (split; [exact Hk|]).
    - apply negb_true_iff in Hs. intros k Hkk. exact (shares_not_in S k Hs Hkk).
    - apply negb_true_iff. unfold shares_in. apply not_true_is_false. intro Hx. apply existsb_exists in Hx as [k [Hin Hx]]. apply in_seq in Hin. rewrite Hs in Hx by lia. discriminate. }
  unfold price_source_of. destruct expected as [[[|] p]|].
  - split; [discriminate|]. intros [[q E]|[E _]]; discriminate.
  - split; [intros _; left; exists p; reflexivity|reflexivity].
  - destruct (Nat.ltb 0 (sK3 S) && negb (shares_in S))%bool.
    + destruct (proj1 B eq_refl) as [Hk Hu]. unfold validated. split.
      * intro H. right. split; [reflexivity|]. split; [exact Hk|]. split; [exact Hu|]. destruct it as [|[|]|]; try discriminate; [right|left]; reflexivity.
      * intros [[q E]|(_ & _ & _ & [-> | ->])]; [discriminate|reflexivity|reflexivity].
    + split; [discriminate|]. intros [[q E]|(_ & Hk & Hu & _)]; [discriminate|]. assert (X := proj2 B (conj Hk Hu)). discriminate.
Qed.
Print Assumptions C122_refusals.

(** Expected prices that are given are reported back whatever the draws; elements of Jacobians are finite if estimated ones are, are
    kept if they are finite, and replacing any is reported. *)
Theorem C122_averages :
  (forall draws routine e S v delta tilde fitted p constant j, (0 < draws)%nat ->
     accumulate draws (fun d => fst (realized_prices routine e S v (delta d) (tilde d) fitted (GivenPrices p) constant) j) draws = p j) /\
  (forall realized estimated, ffin estimated = true -> ffin (reverted realized estimated) = true) /\
  (forall realized estimated, ffin realized = true -> reverted realized estimated = realized) /\
  (forall rows columns realized, reversion_reported rows columns realized = true <->
     exists n p, (n < rows)%nat /\ (p < columns)%nat /\ ffin (realized n p) = false).
Proof.
  split; [|split; [exact reverted_finite|split; [exact reverted_same|exact reported_iff]]].
  intros. exact (average_same draws (p j) H).
Qed.
Print Assumptions C122_averages.

(** Log costs of ln 8, markups of two, and prices of ten. *)
Example C122_applies :
  let S := wx_supply LogCosts in let v := wx_point 0 in let tilde := fun _ : nat => ln 8 in
  let x := fst (realized_prices wx_routine ex_market S v (fun _ => 0) tilde (fun _ => 10) EquilibriumPrices true) in
  let e' := realized_market wx_routine ex_market S v (fun _ => 0) tilde (fun _ => 10) EquilibriumPrices true in
  let d' := realized_delta wx_routine ex_market S v (fun _ => 0) tilde (fun _ => 10) EquilibriumPrices true in
  x = (fun _ => 10) /\ exact_solve ex_solve /\ exact_inverse ex_inverse /\ regular ex_market v /\ in_theta ex_economy ex_market v wx_sigma /\
  (fun _ : nat => 0) = d' /\ (forall y, Rabs (y - 0) < 1 -> matched e' (moved v wx_sigma y) (fun _ => 0)) /\
  snd (xi_column ex_solve e' v d' wx_sigma) = false /\
  (forall y, Rabs (y - 0) < 1 -> snd (eta_of ex_solve e' (moved v wx_sigma y) (fun _ => 0) ex_inverse true) = false) /\
  snd (kept_inverse e' v d' ex_inverse) = false /\
  price_source_of None S NoIteration = Some EquilibriumPrices /\
  valid_market (fm (market_of ex_market v (fun _ => 0))) /\ competition (market_of ex_market v (fun _ => 0)) (e_ownership ex_market) x /\
  fixed (products ex_market) (endogenous_contraction true (market_of ex_market v (fun _ => 0)) (e_ownership ex_market) S (e_shares ex_market)
    (exponentiated S tilde)) x /\
  honest (fK1 (e_market ex_market)) (fX1 (e_market ex_market)) /\
  explained (products ex_market) (fK1 (e_market ex_market)) (characteristics (fX1 (e_market ex_market)) (var0 (e_market ex_market))) (v_beta v)
    (fun _ => 10) (fun _ => 0).
Proof. exact equilibrium_applies. Qed.
Print Assumptions C122_applies.
Example C122_data_applies : honest (fK2 (e_market ex_market)) (fX2 (e_market ex_market)) /\
  (forall k, (k < fK2 (e_market ex_market))%nat -> forall j, X2_0 (e_market ex_market) j k = ev (fX2 (e_market ex_market) k) j (var0 (e_market ex_market) j)).
Proof. split; [intros k j x y Hk H|intros k Hk j]; reflexivity. Qed.

(* ---------- C123 ---------- *)

(** Whether costs are constant does not matter: realizations of optimal instruments are the same. *)
Theorem C123_constant_costs_ignored : forall routine e S v delta tilde fitted expected it source,
  price_source_of expected S it = Some source ->
  realized_prices routine e S v delta tilde fitted source true = realized_prices routine e S v delta tilde fitted source false /\
  realized_delta routine e S v delta tilde fitted source true = realized_delta routine e S v delta tilde fitted source false /\
  realized_market routine e S v delta tilde fitted source true = realized_market routine e S v delta tilde fitted source false /\
  (forall solve p, realized_xi_column routine e S v delta tilde fitted source true solve p
     = realized_xi_column routine e S v delta tilde fitted source false solve p) /\
  (forall solve inverse p, realized_omega_column routine e S v delta tilde fitted source true solve inverse p
     = realized_omega_column routine e S v delta tilde fitted source false solve inverse p).
Proof.
  intros routine e S v delta tilde fitted expected it source H. assert (E := same_prices routine e S v delta tilde fitted source expected it H).
  assert (D : realized_delta routine e S v delta tilde fitted source true = realized_delta routine e S v delta tilde fitted source false)
    by (unfold realized_delta; rewrite E; reflexivity).
  assert (M : realized_market routine e S v delta tilde fitted source true = realized_market routine e S v delta tilde fitted source false)
    by (unfold realized_market, realized_shares; rewrite E; reflexivity).
  split; [exact E|split; [exact D|split; [exact M|split]]].
  - intros. unfold realized_xi_column. rewrite D, M. reflexivity.
  - intros. unfold realized_omega_column. rewrite D, M. reflexivity.
Qed.
Print Assumptions C123_constant_costs_ignored.

(** So if X3 includes shares and costs are not to be constant, costs at which Jacobians are computed do not adjust to shares of the
    realization: they are not explained by X3 at these shares and the drawn errors. *)
Theorem C123_costs_adjust_refuted :
  exists routine e S v delta tilde fitted source draw,
  price_source_of None S NoIteration = Some source /\ shares_in S = true /\ regular e v /\ honest (sK3 S) (sX3 S) /\
  explained (products e) (sK3 S) (characteristics (sX3 S) (e_shares e)) (sgamma S) draw tilde /\
  (forall j, (j < products e)%nat -> realized_shares routine e S v delta tilde fitted source false j <> e_shares e j) /\
  ~ explained (products e) (sK3 S) (characteristics (sX3 S) (realized_shares routine e S v delta tilde fitted source false)) (sgamma S) draw tilde.
Proof. exact costs_do_not_adjust. Qed.
Print Assumptions C123_costs_adjust_refuted.

(** If X3 does not include shares, they need not. *)
Theorem C123_without_shares : forall routine e S v delta tilde fitted source draw, honest (sK3 S) (sX3 S) -> shares_in S = false ->
  explained (products e) (sK3 S) (characteristics (sX3 S) (e_shares e)) (sgamma S) draw tilde ->
  explained (products e) (sK3 S) (characteristics (sX3 S) (realized_shares routine e S v delta tilde fitted source false)) (sgamma S) draw tilde.
Proof.
  intros routine e S v delta tilde fitted source draw Hn Hs H j Hj. rewrite (H j Hj). f_equal. apply sumn_ext. intros k Hk. f_equal.
  unfold characteristics. apply Hn; [exact Hk|]. exact (shares_not_in S k Hs Hk).
Qed.
Print Assumptions C123_without_shares.

Example C123_applies :
  price_source_of None (wx_supply LogCosts) NoIteration = Some EquilibriumPrices /\ shares_in (wx_supply LogCosts) = false /\
  honest (sK3 (wx_supply LogCosts)) (sX3 (wx_supply LogCosts)) /\
  explained (products ex_market) 1 (characteristics (sX3 (wx_supply LogCosts)) (e_shares ex_market)) (sgamma (wx_supply LogCosts)) (fun _ => 3) (fun _ => 8).
Proof.
  split; [reflexivity|]. split; [reflexivity|]. split; [intros k j x y _ _; reflexivity|]. intros j Hj. cbn. ring.
Qed.
Print Assumptions C123_applies.

(* ---------- C124 ---------- *)

(** Bootstrapped mean utilities are explained by drawn parameters, characteristics at bootstrapped prices, and estimated errors.
    Bootstrapped shares are those that the model predicts with drawn parameters. *)
Theorem C124_demand : forall routine e S v beta estimate errors tilde fitted source constant,
  honest (fK1 (e_market e)) (fX1 (e_market e)) -> regular e v ->
  let X1 := characteristics (fX1 (e_market e)) (var0 (e_market e)) in
  let delta := with_linear (fK1 (e_market e)) X1 beta (v_beta v) estimate in
  explained (products e) (fK1 (e_market e)) X1 beta errors estimate ->
  explained (products e) (fK1 (e_market e))
    (characteristics (fX1 (e_market e)) (fst (realized_prices routine e S v delta tilde fitted source constant))) (v_beta v) errors
    (realized_delta routine e S v delta tilde fitted source constant) /\
  matched (realized_market routine e S v delta tilde fitted source constant) v (realized_delta routine e S v delta tilde fitted source constant).
Proof.
  intros routine e S v beta estimate errors tilde fitted source constant Hn HR X1 delta H. split; [|apply realized_matched; exact HR].
  apply realized_errors; [exact Hn|]. apply with_linear_explained. exact H.
Qed.
Print Assumptions C124_demand.

(** Bootstrapped prices are such that marginal costs implied by first-order conditions are explained by drawn parameters and estimated
    errors; X3 is at bootstrapped shares if costs are not constant, and otherwise at observed ones. *)
Theorem C124_supply : forall routine e S v gamma delta estimate errors fitted source constant solve inverse keep,
  honest (sK3 S) (sX3 S) -> exact_solve solve -> exact_inverse inverse ->
  let X3 := characteristics (sX3 S) (e_shares e) in
  let tilde := with_linear (sK3 S) X3 gamma (sgamma S) estimate in
  let x := fst (realized_prices routine e S v delta tilde fitted source constant) in
  let e' := realized_market routine e S v delta tilde fitted source constant in
  let d' := realized_delta routine e S v delta tilde fitted source constant in
  let s' := realized_shares routine e S v delta tilde fitted source constant in
  explained (products e) (sK3 S) X3 gamma errors estimate ->
  valid_market (fm (market_of e v delta)) -> competition (market_of e v delta) (e_ownership e) x ->
  fixed (products e) (endogenous_contraction constant (market_of e v delta) (e_ownership e) S (e_shares e) (exponentiated S tilde)) x ->
  snd (eta_of solve e' v d' inverse keep) = false ->
  explained (products e) (sK3 S) (characteristics (sX3 S) (if constant then e_shares e else s')) (sgamma S) errors
    (tilde_costs_at solve e' v d' inverse (logged S) keep).
Proof.
  intros routine e S v gamma delta estimate errors fitted source constant solve inverse keep Hn HS HI X3 tilde x e' d' s' H V C F B j Hj.
  exact (realized_tilde routine e S v delta tilde fitted source constant solve inverse HS HI keep V C F B Hn errors
    (with_linear_explained _ _ _ _ _ _ _ H) j Hj).
Qed.
Print Assumptions C124_supply.

(** So with constant costs, which is the default, and shares in X3, errors that bootstrapped data imply are not the estimated ones. *)
Theorem C124_constant_costs_differ :
  exists routine e S v gamma delta estimate errors fitted source solve inverse keep,
  honest (sK3 S) (sX3 S) /\ exact_solve solve /\ exact_inverse inverse /\ regular e v /\
  bootstrap_source S (var0 (e_market e)) NoIteration = Some source /\
  let X3 := characteristics (sX3 S) (e_shares e) in
  let tilde := with_linear (sK3 S) X3 gamma (sgamma S) estimate in
  let x := fst (realized_prices routine e S v delta tilde fitted source true) in
  let e' := realized_market routine e S v delta tilde fitted source true in
  let d' := realized_delta routine e S v delta tilde fitted source true in
  let s' := realized_shares routine e S v delta tilde fitted source true in
  explained (products e) (sK3 S) X3 gamma errors estimate /\
  valid_market (fm (market_of e v delta)) /\ competition (market_of e v delta) (e_ownership e) x /\
  fixed (products e) (endogenous_contraction true (market_of e v delta) (e_ownership e) S (e_shares e) (exponentiated S tilde)) x /\
  snd (eta_of solve e' v d' inverse keep) = false /\
  ~ explained (products e) (sK3 S) (characteristics (sX3 S) s') (sgamma S) errors (tilde_costs_at solve e' v d' inverse (logged S) keep).
Proof. exact bootstrapped_errors_differ. Qed.
Print Assumptions C124_constant_costs_differ.

(** Without a supply side, prices are those in the data, whatever [iteration] is. *)
Theorem C124_prices : forall routine e S v delta tilde fitted constant it source,
  bootstrap_source S (var0 (e_market e)) it = Some source ->
  (sK3 S = O -> fst (realized_prices routine e S v delta tilde fitted source constant) = var0 (e_market e)) /\
  (sK3 S <> O -> source = EquilibriumPrices).
Proof.
  intros routine e S v delta tilde fitted constant it source. unfold bootstrap_source. destruct (Nat.eqb_spec (sK3 S) 0) as [E|E].
  - intro H. injection H as <-. split; [reflexivity|congruence].
  - intro H. split; [congruence|]. intros _. unfold validated in H. destruct it as [|[|]|]; congruence.
Qed.
Print Assumptions C124_prices.
(** With a supply side, arguments are refused for the same reasons as those of compute_optimal_instruments. *)
Theorem C124_refusals : forall S observed it, bootstrap_source S observed it = None <-> sK3 S <> O /\ (it = NotIteration \/ it = AnIteration true).
Proof.
  intros S observed it. unfold bootstrap_source, validated. destruct (Nat.eqb_spec (sK3 S) 0) as [E|E]; split.
  - discriminate.
  - intros [H _]. contradiction.
  - intro H. split; [exact E|]. destruct it as [|[|]|]; try discriminate; [right|left]; reflexivity.
  - intros [_ [-> | ->]]; reflexivity.
Qed.
Print Assumptions C124_refusals.

Example C124_applies :
  let S := wx_supply LogCosts in let v := wx_point 0 in
  let X1 := characteristics (fX1 (e_market ex_market)) (var0 (e_market ex_market)) in
  honest (fK1 (e_market ex_market)) (fX1 (e_market ex_market)) /\ regular ex_market v /\
  explained (products ex_market) (fK1 (e_market ex_market)) X1 (fun _ => 1) (fun _ => 0) (fun _ => 11) /\
  with_linear (fK1 (e_market ex_market)) X1 (fun _ => 1) (v_beta v) (fun _ => 11) O = - (10) /\
  bootstrap_source S (var0 (e_market ex_market)) NoIteration = Some EquilibriumPrices.
Proof.
  cbv zeta. split; [|split; [apply wx_regular|split; [|split; [|reflexivity]]]].
  - intros k j x y Hk. destruct k as [|[|]]; cbn; [reflexivity|discriminate|lia].
  - intros j Hj. unfold characteristics. cbn. ring.
  - unfold with_linear, characteristics. cbn. ring.
Qed.
Print Assumptions C124_applies.
