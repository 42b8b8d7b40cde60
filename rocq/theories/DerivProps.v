(** Properties of second derivatives, derivatives with respect to mean utilities, parameter tangents
    and implicit derivatives. *)
From Coq Require Import Reals Lra Lia List Bool Arith.
From Verif Require Import Base DemandSpec DemandModel DemandProofs DemandShares DemandElim DemandDeriv
  SupplyModel SupplySpec SupplyProofs DerivModel DerivProofs DerivCurve DerivParam DerivMore DerivPaths DerivLinear.
Local Open Scope R_scope.

(** C61: whatever function D gives the first derivatives of shares near x, the reported Hessian
    holds the derivatives of D. *)
Theorem C61_hessian_is_second_derivative :
  forall M D x e j k l,
  valid_market (fm M) -> 0 < e -> (forall y, near (mJ (fm M)) e x y -> good_columns M y) -> twice_differentiable M x ->
  (forall y, near (mJ (fm M)) e x y -> is_jacobian (mJ (fm M)) (shares_at M) y (D y)) ->
  (j < mJ (fm M))%nat -> (k < mJ (fm M))%nat -> (l < mJ (fm M))%nat ->
  derivable_pt_lim (fun t => D (upd x l t) j k) (x l) (shares_hessian M x j k l).
Proof. exact hessian_exact. Qed.
Print Assumptions C61_hessian_is_second_derivative.

Example C61_applies :
  let M := flat_market 2 twice in
  valid_market (fm M) /\ (forall y, good_columns M y) /\ twice_differentiable M (fun _ => 0) /\
  (forall y, is_jacobian (mJ (fm M)) (shares_at M) y (shares_jacobian M y)) /\ (1 < mJ (fm M))%nat.
Proof.
  cbv zeta. assert (V : valid_market (fm (flat_market 2 twice))) by (apply flat_valid; lia).
  split; [exact V|]. split; [intros; apply flat_good|]. split; [|split; [|cbn; lia]].
  - split; intros k j Hu Hk Hj; [cbn; apply dlim_const|cbn in Hk; lia].
  - intros y. apply jacobian_exact; [exact V|apply flat_good].
Qed.

(** C65: so does the profit Hessian. *)
Theorem C65_profit_hessian :
  forall M costs D x e j k l,
  valid_market (fm M) -> 0 < e -> (forall y, near (mJ (fm M)) e x y -> good_columns M y) -> twice_differentiable M x ->
  (forall y, near (mJ (fm M)) e x y -> is_jacobian (mJ (fm M)) (profit (shares_at M) costs) y (D y)) ->
  (j < mJ (fm M))%nat -> (k < mJ (fm M))%nat -> (l < mJ (fm M))%nat ->
  derivable_pt_lim (fun t => D (upd x l t) j k) (x l) (profit_hessian M costs x j k l).
Proof. exact profit_hessian_exact. Qed.
Print Assumptions C65_profit_hessian.

Example C65_applies :
  let M := flat_market 2 twice in
  valid_market (fm M) /\ (forall y, good_columns M y) /\ twice_differentiable M (fun _ => 0) /\
  (forall y, is_jacobian (mJ (fm M)) (profit (shares_at M) (fun _ => 3)) y (profit_jacobian M (fun _ => 3) y)).
Proof.
  cbv zeta. assert (V : valid_market (fm (flat_market 2 twice))) by (apply flat_valid; lia).
  split; [exact V|]. split; [intros; apply flat_good|]. split.
  - split; intros k j Hu Hk Hj; [cbn; apply dlim_const|cbn in Hk; lia].
  - intros y j k Hj Hk. apply profit_jacobian_derivative; [exact V|apply flat_good|exact Hj|exact Hk].
Qed.

(** C62: at matched shares, the share-by-xi Jacobian holds the derivatives of shares with respect to
    mean utilities, for every epsilon scale and nesting structure. *)
Theorem C62_shares_by_xi :
  forall m a delta observed,
  valid_market m ->
  (forall j, (j < mJ m)%nat -> observed j = market_shares m a true delta j) ->
  is_jacobian (mJ m) (market_shares m a true) delta
    (shares_by_xi_jacobian m (aI a) (aw a) observed (probs m delta (amu a)) (conds m delta (amu a))).
Proof. exact xi_jacobian_exact. Qed.
Print Assumptions C62_shares_by_xi.

(** C62: so do the probability and conditional probability tensors. *)
Theorem C62_probabilities_by_xi :
  forall m delta mu i l j,
  valid_market m -> (j < mJ m)%nat -> (l < mJ m)%nat ->
  derivable_pt_lim (fun t => probs m (upd delta l t) mu i j) (delta l)
    (probabilities_by_xi m (probs m delta mu i) (conds m delta mu i) l j).
Proof. intros m delta mu i l j V. exact (probabilities_by_xi_derive m V delta mu i l j). Qed.
Print Assumptions C62_probabilities_by_xi.

Theorem C62_conditionals_by_xi :
  forall m delta mu i l j,
  valid_market m -> mH m <> O -> (j < mJ m)%nat -> (l < mJ m)%nat ->
  derivable_pt_lim (fun t => conds m (upd delta l t) mu i j) (delta l)
    (conditionals_by_xi m (conds m delta mu i) l j).
Proof. intros m delta mu i l j V. exact (conditionals_by_xi_derive m V delta mu i l j). Qed.
Print Assumptions C62_conditionals_by_xi.

(** C62: the Jacobian handed to root finders is that of the contraction when epsilon has scale one. *)
Theorem C62_contraction_jacobian :
  forall m a shares x j k,
  valid_market m -> valid_agents a -> eps_scale m = 1 -> (j < mJ m)%nat -> (k < mJ m)%nat ->
  derivable_pt_lim (fun t => contraction m a true (None, None) shares (upd x k t) j) (x k)
    (contraction_jacobian m (aI a) (aw a) (probs m x (amu a)) (conds m x (amu a)) j k).
Proof. intros m a shares x j k V. exact (contraction_derive m V a shares x j k). Qed.
Print Assumptions C62_contraction_jacobian.

(** C62 fails for the contraction under another epsilon scale, even at the solution. *)
Theorem C62_contraction_jacobian_refuted :
  exists m a shares x j k,
    valid_market m /\ valid_agents a /\ (j < mJ m)%nat /\ (k < mJ m)%nat /\
    (forall j, (j < mJ m)%nat -> shares j = market_shares m a true x j) /\
    ~ derivable_pt_lim (fun t => contraction m a true (None, None) shares (upd x k t) j) (x k)
        (contraction_jacobian m (aI a) (aw a) (probs m x (amu a)) (conds m x (amu a)) j k).
Proof. exact contraction_eps_refuted. Qed.
Print Assumptions C62_contraction_jacobian_refuted.

(** Two products in one nest. *)
Definition nest_market : market := mk_market 2 1 (fun _ => O) false (fun _ => / 2) 1.
Example C62_applies :
  valid_market nest_market /\ mH nest_market <> O /\ eps_scale nest_market = 1 /\
  valid_agents (mk_agents 2 (fun _ => / 2) (fun i j => INR i * INR j)).
Proof.
  split; [constructor; cbn; intros; try lia; try lra; try congruence; reflexivity|].
  split; [discriminate|]. split; [reflexivity|].
  split; [intros; cbn; lra|]. exists O; cbn; split; [lia|lra].
Qed.

(** C63: tangents with respect to any parameter in sigma and pi, for every type of random coefficient. *)
Theorem C63_sigma_pi_tangents :
  forall m T sigma pi p delta i j,
  valid_market m -> in_range T p -> (j < mJ m)%nat ->
  let P := probs m delta (mu_of T sigma pi) in
  let C := conds m delta (mu_of T sigma pi) in
  let tangent := utility_tangent m (P i) (C i) (fun k => r_X2 T k (np_row p) * effective_characteristic T sigma pi p i k) in
  derivable_pt_lim (fun y => probs m delta (mu_of T (sigma_with p sigma y) (pi_with p pi y)) i j)
    (np_value p sigma pi) (fst tangent j) /\
  (mH m <> O ->
   derivable_pt_lim (fun y => conds m delta (mu_of T (sigma_with p sigma y) (pi_with p pi y)) i j)
     (np_value p sigma pi) (snd tangent j)).
Proof. exact nonlinear_tangent_exact. Qed.
Print Assumptions C63_sigma_pi_tangents.

(** C63: tangents with respect to a nesting parameter governing the flagged groups. *)
Theorem C63_rho_tangents :
  forall m mu flag t delta i j,
  valid_market m -> mH m <> O ->
  (forall h, flag h = true -> grho m h = t) -> t < 1 ->
  (rho_multi m = false -> forall h, (h < mH m)%nat -> flag h = true) -> (j < mJ m)%nat ->
  let tangent := rho_tangent m (probs m delta mu i) (conds m delta mu i) delta (mu i) (fun h => indR (flag h)) in
  derivable_pt_lim (fun y => probs (with_rho m (fun h => if flag h then y else grho m h)) delta mu i j) t (fst tangent j) /\
  derivable_pt_lim (fun y => conds (with_rho m (fun h => if flag h then y else grho m h)) delta mu i j) t (snd tangent j).
Proof. exact rho_tangent_exact. Qed.
Print Assumptions C63_rho_tangents.

(** C63: tangents with respect to a linear parameter, whose characteristic X enters mean utility. *)
Theorem C63_beta_tangents :
  forall m (X rest : nat -> R) b mu i j,
  valid_market m -> (j < mJ m)%nat ->
  let delta := fun y k => X k * y + rest k in
  let tangent := utility_tangent m (probs m (delta b) mu i) (conds m (delta b) mu i) X in
  derivable_pt_lim (fun y => probs m (delta y) mu i j) b (fst tangent j) /\
  (mH m <> O -> derivable_pt_lim (fun y => conds m (delta y) mu i j) b (snd tangent j)).
Proof. exact beta_tangent_exact. Qed.
Print Assumptions C63_beta_tangents.

Example C63_applies :
  valid_market nest_market /\ in_range one_taste (SigmaParameter 0 0) /\ mH nest_market <> O /\
  (forall h, (fun _ : nat => true) h = true -> grho nest_market h = / 2) /\ / 2 < 1.
Proof.
  split; [constructor; cbn; intros; try lia; try lra; try congruence; reflexivity|].
  split; [cbn; lia|]. split; [discriminate|]. split; [reflexivity|lra].
Qed.

(** C64: however mean utilities keep shares matched as a parameter in sigma or pi varies, they have
    derivatives, and if the linear solver is exact when it reports no replacement, the xi-by-theta
    Jacobian holds them. *)
Theorem C64_xi_by_theta :
  forall solve m a T sigma pi p observed dpath,
  valid_market m -> valid_agents a -> in_range T p ->
  (mH m <> O -> forall h, (h < mH m)%nat -> 0 <= grho m h) ->
  exact_solver (mJ m) solve ->
  amu a = mu_of T sigma pi ->
  matching_path m (aI a, aw a) T sigma pi p observed dpath ->
  let t := np_value p sigma pi in
  let P := probs m (dpath t) (amu a) in
  let C := conds m (dpath t) (amu a) in
  let X := xi_by_theta solve m (aI a) (aw a) observed P C
             (fun i => fst (utility_tangent m (P i) (C i) (vx T sigma pi p i))) in
  snd X = false -> forall j, (j < mJ m)%nat -> derivable_pt_lim (fun y => dpath y j) t (fst X j).
Proof. exact xi_by_theta_derivative. Qed.
Print Assumptions C64_xi_by_theta.

(** C64: the updated tangents are the total derivatives of probabilities and conditionals. *)
Theorem C64_total_tangents :
  forall solve m a T sigma pi p observed dpath,
  valid_market m -> valid_agents a -> in_range T p ->
  (mH m <> O -> forall h, (h < mH m)%nat -> 0 <= grho m h) ->
  exact_solver (mJ m) solve ->
  amu a = mu_of T sigma pi ->
  matching_path m (aI a, aw a) T sigma pi p observed dpath ->
  let t := np_value p sigma pi in
  let P := probs m (dpath t) (amu a) in
  let C := conds m (dpath t) (amu a) in
  let tangent := fun i => utility_tangent m (P i) (C i) (vx T sigma pi p i) in
  let X := xi_by_theta solve m (aI a) (aw a) observed P C (fun i => fst (tangent i)) in
  snd X = false -> forall i j, (j < mJ m)%nat ->
  derivable_pt_lim (fun y => probs m (dpath y) (mu_path T sigma pi p y) i j) t
    (total_tangent m (P i) (C i) (fst (tangent i)) (fst X) j) /\
  (mH m <> O -> derivable_pt_lim (fun y => conds m (dpath y) (mu_path T sigma pi p y) i j) t
    (total_cond_tangent m (C i) (snd (tangent i)) (fst X) j)).
Proof. exact total_tangent_derivative. Qed.
Print Assumptions C64_total_tangents.

(** C64: the same for a nesting parameter. *)
Theorem C64_rho :
  forall solve m a flag t observed dpath,
  valid_market m -> valid_agents a -> mH m <> O ->
  (forall h, flag h = true -> grho m h = t) -> 0 < t < 1 ->
  (rho_multi m = false -> forall h, (h < mH m)%nat -> flag h = true) ->
  (forall h, (h < mH m)%nat -> 0 <= grho m h) ->
  exact_solver (mJ m) solve ->
  matching_rho_path m a flag t observed dpath ->
  let P := probs m (dpath t) (amu a) in
  let C := conds m (dpath t) (amu a) in
  let tangent := fun i => rho_tangent m (P i) (C i) (dpath t) (amu a i) (fun h => indR (flag h)) in
  let X := xi_by_theta solve m (aI a) (aw a) observed P C (fun i => fst (tangent i)) in
  snd X = false ->
  (forall j, (j < mJ m)%nat -> derivable_pt_lim (fun y => dpath y j) t (fst X j)) /\
  (forall i j, (j < mJ m)%nat ->
     derivable_pt_lim (fun y => probs (rho_market m flag y) (dpath y) (amu a) i j) t
       (total_tangent m (P i) (C i) (fst (tangent i)) (fst X) j) /\
     derivable_pt_lim (fun y => conds (rho_market m flag y) (dpath y) (amu a) i j) t
       (total_cond_tangent m (C i) (snd (tangent i)) (fst X) j)).
Proof. exact rho_total_derivative. Qed.
Print Assumptions C64_rho.

(** C64: at any nesting parameter below one, including zero, when mean utilities are differentiable. *)
Theorem C64_rho_given_derivatives :
  forall solve m a flag t observed dpath d,
  valid_market m -> valid_agents a -> mH m <> O ->
  (forall h, flag h = true -> grho m h = t) -> t < 1 ->
  (rho_multi m = false -> forall h, (h < mH m)%nat -> flag h = true) ->
  (forall h, (h < mH m)%nat -> 0 <= grho m h) ->
  exact_solver (mJ m) solve ->
  matching_rho_path m a flag t observed dpath ->
  (forall k, (k < mJ m)%nat -> derivable_pt_lim (fun y => dpath y k) t (d k)) ->
  let P := probs m (dpath t) (amu a) in
  let C := conds m (dpath t) (amu a) in
  let tangent := fun i => rho_tangent m (P i) (C i) (dpath t) (amu a i) (fun h => indR (flag h)) in
  let X := xi_by_theta solve m (aI a) (aw a) observed P C (fun i => fst (tangent i)) in
  snd X = false -> forall j, (j < mJ m)%nat -> fst X j = d j.
Proof.
  intros solve m a flag t observed dpath d V VA HH Hf Ht Hall Hpos HS HM DD P C tangent X HX.
  exact (proj1 (xi_by_rho_exact solve m a flag t observed dpath d V VA HH Hf Ht Hall Hpos HS HM DD HX)).
Qed.
Print Assumptions C64_rho_given_derivatives.

(** C64: a parameter in beta that is not concentrated out is netted out of mean utilities, which do not
    depend on it otherwise; the xi-by-theta Jacobian holds the derivative. *)
Theorem C64_xi_by_beta :
  forall solve m a delta observed X b,
  valid_market m -> valid_agents a ->
  (mH m <> O -> forall h, (h < mH m)%nat -> 0 <= grho m h) ->
  exact_solver (mJ m) solve ->
  (forall j, (j < mJ m)%nat -> observed j = market_shares m a true delta j) ->
  let P := probs m delta (amu a) in
  let C := conds m delta (amu a) in
  let x := xi_by_theta solve m (aI a) (aw a) observed P C (fun i => fst (utility_tangent m (P i) (C i) X)) in
  snd x = false -> forall j, (j < mJ m)%nat -> derivable_pt_lim (fun y => net_of delta X y j) b (fst x j).
Proof.
  intros solve m a delta observed X b V VA Hpos HS Ho P C x Hx j Hj.
  assert (E := xi_by_beta_exact solve m a delta observed X V VA Hpos HS Ho Hx j Hj).
  fold P C in E. fold x in E. rewrite E. apply net_of_derive.
Qed.
Print Assumptions C64_xi_by_beta.

(** C64: markups that solve the markup equation as a parameter in sigma or pi varies, with mean utilities
    keeping shares matched, have derivatives, which are the reported ones when the kept inverse is a left
    inverse. *)
Theorem C64_eta_by_theta :
  forall solve M T sigma pi p observed dpath,
  let a := mk_agents (fI M) (fw M) (mu_of T sigma pi) in
  let t := np_value p sigma pi in
  let J := mJ (fm M) in
  valid_market (fm M) -> valid_agents a -> in_range T p ->
  (mH (fm M) <> O -> forall h, (h < mH (fm M))%nat -> 0 <= grho (fm M) h) ->
  exact_solver J solve ->
  fK2 M = r_K2 T ->
  (forall j k, r_X2 T j k = if uses (fX2 M k) then ev (fX2 M k) j (var0 M j) else X2_0 M j k) ->
  matching_path (fm M) (fI M, fw M) T sigma pi p observed dpath ->
  let P := probs (fm M) (dpath t) (mu_of T sigma pi) in
  let C := conds (fm M) (dpath t) (mu_of T sigma pi) in
  let U := utility_derivatives (tastes_at M T (dpath t) sigma pi) false (var0 M) in
  let tangent := fun i => utility_tangent (fm M) (P i) (C i) (vx T sigma pi p i) in
  let X := xi_by_theta solve (fm M) (fI M) (fw M) observed P C (fun i => fst (tangent i)) in
  let dP := fun i j => total_tangent (fm M) (P i) (C i) (fst (tangent i)) (fst X) j in
  let dC := fun i j => total_cond_tangent (fm M) (C i) (snd (tangent i)) (fst X) j in
  let dU := utility_derivatives_tangent (fm M) T sigma pi (X2_derivatives M) p in
  let at_ := fun y => tastes_at M T (dpath y) (sigma_with p sigma y) (pi_with p pi y) in
  snd X = false ->
  forall O eta inv e,
  0 < e ->
  (forall y, Rabs (y - t) < e -> solves J (capital_delta (at_ y) O (var0 M)) observed (eta y)) ->
  (forall j k, (j < J)%nat -> (k < J)%nat ->
     sumn J (fun a => inv j a * capital_delta (at_ t) O (var0 M) a k) = if Nat.eqb j k then 1 else 0) ->
  forall j, (j < J)%nat -> derivable_pt_lim (fun y => eta y j) t
    (eta_by_theta J inv (capital_delta_tangent (fm M) (fI M) (fw M) P C U dP dC dU (fun _ => 0) O) (eta t) j).
Proof.
  intros solve M T sigma pi p observed dpath a t J V VA HR Hpos HS HK HX HM P C U tangent X dP dC dU at_ HF O.
  assert (D := xi_by_theta_derivative solve (fm M) a T sigma pi p observed dpath V VA HR Hpos HS eq_refl HM HF).
  exact (eta_by_theta_derivative M T sigma pi p V HR HK HX dpath (fst X) D O observed).
Qed.
Print Assumptions C64_eta_by_theta.

Theorem C64_eta_by_rho :
  forall solve M flag t observed dpath,
  let m := fm M in
  let mu := update_mu M (var0 M) in
  let a := mk_agents (fI M) (fw M) mu in
  valid_market m -> valid_agents a -> mH m <> O ->
  (forall h, flag h = true -> grho m h = t) -> 0 < t < 1 ->
  (rho_multi m = false -> forall h, (h < mH m)%nat -> flag h = true) ->
  (forall h, (h < mH m)%nat -> 0 <= grho m h) ->
  exact_solver (mJ m) solve ->
  matching_rho_path m a flag t observed dpath ->
  let P := probs m (dpath t) mu in
  let C := conds m (dpath t) mu in
  let tangent := fun i => rho_tangent m (P i) (C i) (dpath t) (mu i) (fun h => indR (flag h)) in
  let X := xi_by_theta solve m (fI M) (fw M) observed P C (fun i => fst (tangent i)) in
  let dP := fun i j => total_tangent m (P i) (C i) (fst (tangent i)) (fst X) j in
  let dC := fun i j => total_cond_tangent m (C i) (snd (tangent i)) (fst X) j in
  let at_ := fun y => with_market M (rho_market m flag y) (dpath y) in
  snd X = false ->
  forall O eta inv e,
  0 < e ->
  (forall y, Rabs (y - t) < e -> solves (mJ m) (capital_delta (at_ y) O (var0 M)) observed (eta y)) ->
  (forall j k, (j < mJ m)%nat -> (k < mJ m)%nat ->
     sumn (mJ m) (fun a => inv j a * capital_delta (at_ t) O (var0 M) a k) = if Nat.eqb j k then 1 else 0) ->
  forall j, (j < mJ m)%nat -> derivable_pt_lim (fun y => eta y j) t
    (eta_by_theta (mJ m) inv
      (capital_delta_tangent m (fI M) (fw M) P C (utility_derivatives M false (var0 M)) dP dC (fun _ _ => 0)
         (fun h => indR (flag h)) O) (eta t) j).
Proof.
  intros solve M flag t observed dpath m mu a V VA HH Hf Ht Hall Hpos HS HM P C tangent X dP dC at_ HF O.
  assert (D := xi_by_rho_derivative solve m a flag t observed dpath V VA HH Hf Ht Hall Hpos HS HM HF).
  exact (eta_by_rho_derivative M flag t V HH Hf (proj2 Ht) Hall dpath (fst X) D O observed).
Qed.
Print Assumptions C64_eta_by_rho.

(** C64: and as a parameter in beta varies, which moves utility derivatives only. *)
Theorem C64_eta_by_beta :
  forall M k,
  valid_market (fm M) -> (k < fK1 M)%nat ->
  let t := fbeta M k in
  let J := mJ (fm M) in
  let P := probs (fm M) (delta0 M) (update_mu M (var0 M)) in
  let C := conds (fm M) (delta0 M) (update_mu M (var0 M)) in
  let U := utility_derivatives M false (var0 M) in
  forall O observed eta inv e,
  0 < e ->
  (forall y, Rabs (y - t) < e -> solves J (capital_delta (with_beta M k y) O (var0 M)) observed (eta y)) ->
  (forall j l, (j < J)%nat -> (l < J)%nat ->
     sumn J (fun a => inv j a * capital_delta M O (var0 M) a l) = if Nat.eqb j l then 1 else 0) ->
  forall j, (j < J)%nat -> derivable_pt_lim (fun y => eta y j) t
    (eta_by_theta J inv
      (capital_delta_tangent (fm M) (fI M) (fw M) P C U beta_total_tangent beta_total_tangent
         (beta_derivatives_tangent M k) (fun _ => 0) O) (eta t) j).
Proof. intros M k V Hk t J P C U. exact (eta_by_beta_derivative M k V Hk). Qed.
Print Assumptions C64_eta_by_beta.

(** C64: a parameter in gamma is only netted out of transformed marginal costs. *)
Theorem C64_omega_by_gamma :
  forall tilde_costs X3 b j, derivable_pt_lim (fun y => net_of tilde_costs X3 y j) b (omega_by_gamma X3 j).
Proof. exact net_of_derive. Qed.
Print Assumptions C64_omega_by_gamma.

Theorem C64_xi_by_gamma :
  forall solve m a delta observed,
  valid_market m -> valid_agents a ->
  (mH m <> O -> forall h, (h < mH m)%nat -> 0 <= grho m h) ->
  exact_solver (mJ m) solve ->
  (forall j, (j < mJ m)%nat -> observed j = market_shares m a true delta j) ->
  let x := xi_by_theta solve m (aI a) (aw a) observed (probs m delta (amu a)) (conds m delta (amu a)) (fun _ _ => 0) in
  snd x = false -> forall j, (j < mJ m)%nat -> fst x j = 0.
Proof. exact xi_by_other_exact. Qed.
Print Assumptions C64_xi_by_gamma.

(** C64: mean utilities that keep shares matched as a parameter varies exist and
    are unique, so the derivatives above are those of the inversion of shares. *)
Theorem C64_matching_unique :
  forall m I w T sigma pi p observed y,
  valid_market m -> (forall i, (i < I)%nat -> 0 <= w i) ->
  (mH m <> O -> forall h, (h < mH m)%nat -> 0 <= grho m h) ->
  (forall j, (j < mJ m)%nat -> 0 < observed j) -> 0 < sumn I w -> sumn (mJ m) observed < sumn I w ->
  let a := mk_agents I w (mu_of T (sigma_with p sigma y) (pi_with p pi y)) in
  exists delta, (forall j, (j < mJ m)%nat -> market_shares m a true delta j = observed j) /\
    forall other, (forall j, (j < mJ m)%nat -> market_shares m a true other j = observed j) ->
      forall j, (j < mJ m)%nat -> other j = delta j.
Proof. exact matching_unique. Qed.
Print Assumptions C64_matching_unique.

(** C64: transformed marginal costs follow, linear or logged. *)
Theorem C64_omega_by_theta :
  forall (costs_log : bool) prices (eta : R -> nat -> R) deta t j,
  derivable_pt_lim (fun y => eta y j) t deta ->
  (costs_log = true -> 0 < prices j - eta t j) ->
  derivable_pt_lim (fun y => tilde_costs_of costs_log prices (eta y) j) t
    (omega_by_theta costs_log (tilde_costs_of costs_log prices (eta t)) (fun _ => deta) j).
Proof. exact omega_derive. Qed.
Print Assumptions C64_omega_by_theta.

(** One product, one agent with utility delta + sigma: delta = - sigma keeps the share at one half. *)
Example C64_applies :
  let a := mk_agents 1 (fun _ => 1) (mu_of one_taste (fun _ _ => 3) (fun _ _ => 0)) in
  let p := SigmaParameter 0 0 in
  let dpath := fun y (_ : nat) => - y in
  valid_agents a /\ in_range one_taste p /\
  matching_path one_market (aI a, aw a) one_taste (fun _ _ => 3) (fun _ _ => 0) p (fun _ => / 2) dpath /\
  derivable_pt_lim (fun y => dpath y 0%nat) (np_value p (fun _ _ => 3) (fun _ _ => 0)) (- (1)) /\
  (let t := np_value p (fun _ _ => 3) (fun _ _ => 0) in
   snd (xi_by_theta scalar_solver one_market (aI a) (aw a) (fun _ => / 2) (probs one_market (dpath t) (amu a))
     (conds one_market (dpath t) (amu a))
     (fun i => fst (utility_tangent one_market (probs one_market (dpath t) (amu a) i)
         (conds one_market (dpath t) (amu a) i) (vx one_taste (fun _ _ => 3) (fun _ _ => 0) p i)))) = false).
Proof. exact matching_example. Qed.

Example C64_beta_applies :
  let M := flat_market 1 (fun _ => 1) in
  let O := fun _ _ : nat => 1 in
  let eta := fun y (_ : nat) => - 2 / y in
  (forall y, Rabs (y - fbeta M 0%nat) < / 2 ->
     solves (mJ (fm M)) (capital_delta (with_beta M 0 y) O (var0 M)) (fun _ => / 2) (eta y)) /\
  (forall j k, (j < mJ (fm M))%nat -> (k < mJ (fm M))%nat ->
     sumn (mJ (fm M)) (fun a => 4 * capital_delta M O (var0 M) a k) = if Nat.eqb j k then 1 else 0).
Proof. exact beta_example. Qed.
