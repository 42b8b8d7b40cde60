(** Model of the analytic derivatives in pyblp/markets/market.py: second derivatives with respect to
    a variable, derivatives with respect to mean utilities, and tangents with respect to parameters.
    Definitions only.  Arrays of shape (J, I) are indexed agent first, as in SupplyModel. *)
From Coq Require Import Reals List Bool Arith.
From Verif Require Import Base DemandModel SupplyModel.
Local Open Scope R_scope.

Section Tensor.
  Variables (m : market) (I : nat) (w : nat -> R) (P C U U2 : nat -> nat -> R).

  (** Derivative of the probability of product k with respect to the variable of product l.
      market.py 1227-1237. *)
  Definition probability_derivatives (l i k : nat) : R :=
    if Nat.eqb (mH m) 0 then
      - P i k * (P i l * U i l) + (if Nat.eqb k l then P i l * U i l else 0)
    else
      - (P i k * (P i l * U i l)
         + rho m k / (1 - rho m k) * membership m k l * C i k * (P i l * U i l))
      + (if Nat.eqb k l then P i l * U i l / (1 - rho m l) else 0).

  (** market.py 1239-1241. *)
  Definition probability_utility_second_derivatives (l i k : nat) : R :=
    probability_derivatives l i k * U i k + (if Nat.eqb k l then P i l * U2 i l else 0).

  (** Diagonal of the capital lambda tensor.  market.py 1243-1248. *)
  Definition capital_lamda_tensor (j l : nat) : R :=
    let d := sumn I (fun i => probability_utility_second_derivatives l i j * w i) in
    if Nat.eqb (mH m) 0 then d else d / (1 - rho m j).

  (** market.py 1216-1217, 1260-1262: conditional derivatives. *)
  Definition conditional_derivatives (l i k : nat) : R :=
    - C i k * membership m k l * (C i l * U i l / (1 - rho m l))
    + (if Nat.eqb k l then C i l * U i l / (1 - rho m l) else 0).

  (** market.py 1250-1268. *)
  Definition capital_gamma_tensor (j k l : nat) : R :=
    let g := sumn I (fun i => probability_derivatives l i j * (w i * (P i k * U i k)))
             + sumn I (fun i => P i j * (w i * probability_utility_second_derivatives l i k)) in
    if Nat.eqb (mH m) 0 then g
    else g + rho m j / (1 - rho m j) * membership m j k *
         (sumn I (fun i => conditional_derivatives l i j * (w i * (P i k * U i k)))
          + sumn I (fun i => C i j * (w i * probability_utility_second_derivatives l i k))).

  (** [compute_shares_by_variable_hessian].  market.py 1271-1289. *)
  Definition hessian_of (j k l : nat) : R :=
    (if Nat.eqb j k then capital_lamda_tensor j l else 0) - capital_gamma_tensor j k l.
End Tensor.

(** The Hessian at values x.  [safely_compute_demand_hessian], economy_results_market.py 159-167. *)
Definition shares_hessian (M : full_market) (x : nat -> R) (j k l : nat) : R :=
  hessian_of (fm M) (fI M) (fw M)
    (probs (fm M) (update_delta M x) (update_mu M x)) (conds (fm M) (update_delta M x) (update_mu M x))
    (utility_derivatives M false x) (utility_derivatives M true x) j k l.

(** [compute_profit_hessian].  market.py 1311-1338. *)
Definition profit_hessian (M : full_market) (costs x : nat -> R) (j k l : nat) : R :=
  (x j - costs j) * shares_hessian M x j k l
  + (if Nat.eqb j k then shares_jacobian M x j l else 0)
  + (if Nat.eqb j l then shares_jacobian M x j k else 0).

(** [compute_shares_by_xi_jacobian].  market.py 1340-1355. *)
Definition shares_by_xi_jacobian (m : market) (I : nat) (w : nat -> R) (observed : nat -> R)
    (P C : nat -> nat -> R) (j k : nat) : R :=
  let diagonal := if Nat.eqb j k then observed j else 0 in
  let jac := diagonal - sumn I (fun i => P i j * (w i * P i k)) in
  let jac := if Req_EM_T (eps_scale m) 1 then jac else jac / eps_scale m in
  if Nat.eqb (mH m) 0 then jac
  else jac + rho m j / (1 - rho m j) *
         (diagonal - membership m j k * sumn I (fun i => C i j * (w i * P i k))).

(** The Jacobian of the linear contraction (when no share is clipped).  market.py 582-606. *)
Definition contraction_jacobian (m : market) (I : nat) (w : nat -> R) (P C : nat -> nat -> R) (j k : nat) : R :=
  let shares := sumn I (fun i => P i j * w i) in
  if Nat.eqb (mH m) 0 then sumn I (fun i => P i j * (w i * P i k)) / shares
  else ((1 - rho m j) * sumn I (fun i => P i j * (w i * P i k))
        + rho m j * membership m j k * sumn I (fun i => C i j * (w i * P i k))) / shares.

(** [compute_probabilities_by_xi_tensor]: derivative of the probability (conditional) of j with
    respect to the mean utility of l, for one agent.  market.py 1150-1182. *)
Definition probabilities_by_xi (m : market) (P C : nat -> R) (l j : nat) : R :=
  let t := - P j * P l + (if Nat.eqb j l then P j else 0) in
  let t := if Req_EM_T (eps_scale m) 1 then t else t / eps_scale m in
  if Nat.eqb (mH m) 0 then t
  else t - membership m l j * (C j * (rho m l / (1 - rho m l) * P l))
       + (if Nat.eqb j l then rho m l / (1 - rho m l) * P l else 0).
Definition conditionals_by_xi (m : market) (C : nat -> R) (l j : nat) : R :=
  - membership m l j * (C j * (1 / (1 - rho m l) * C l))
  + (if Nat.eqb j l then 1 / (1 - rho m l) * C l else 0).

(** Random coefficient types.  market.py 193-208. *)
Inductive rc_type := RCLinear | RCLog | RCLogit.
Definition expit (x : R) : R := 1 / (1 + exp (- x)).
Definition rc_transform (t : rc_type) (x : R) : R :=
  match t with RCLinear => x | RCLog => exp x | RCLogit => expit x end.

(** Everything that determines mu.  [r_dem i d j] depends on j only for product-specific demographics.
    [r_beta], [r_X1] and [r_xi] determine delta (problem.py: delta = X1 beta + xi). *)
Record tastes := mk_tastes {
  r_K2 : nat;
  r_D : nat;
  r_types : nat -> rc_type;
  r_nodes : nat -> nat -> R;
  r_dem : nat -> nat -> nat -> R;
  r_X2 : nat -> nat -> R
}.

(** [compute_random_coefficients].  market.py 183-210.  Index k, then product j, then agent i. *)
Definition random_coefficients (T : tastes) (sigma pi : nat -> nat -> R) (k j i : nat) : R :=
  rc_transform (r_types T k)
    (sumn (r_K2 T) (fun c => sigma k c * r_nodes T i c)
     + sumn (r_D T) (fun d => pi k d * r_dem T i d j)).

(** [compute_mu].  market.py 229-240. *)
Definition mu_of (T : tastes) (sigma pi : nat -> nat -> R) (i j : nat) : R :=
  sumn (r_K2 T) (fun k => r_X2 T j k * random_coefficients T sigma pi k j i).

(** A parameter in theta that moves utilities: its product characteristic, and for one of sigma or pi
    its location and agent characteristic.  parameters.py 45-137. *)
Inductive nonlinear_parameter :=
| SigmaParameter (row col : nat)
| PiParameter (row col : nat).

Definition np_row (p : nonlinear_parameter) : nat :=
  match p with SigmaParameter k _ => k | PiParameter k _ => k end.

(** [get_agent_characteristic].  parameters.py 65-80. *)
Definition agent_characteristic (T : tastes) (p : nonlinear_parameter) (i j : nat) : R :=
  match p with SigmaParameter _ c => r_nodes T i c | PiParameter _ d => r_dem T i d j end.

(** The characteristic after accounting for the type of random coefficient.  market.py 1022-1031.
    [compute_single_random_coefficient] (212-227) is row k of [random_coefficients]. *)
Definition effective_characteristic (T : tastes) (sigma pi : nat -> nat -> R)
    (p : nonlinear_parameter) (i j : nat) : R :=
  let v := agent_characteristic T p i j in
  let rc := random_coefficients T sigma pi (np_row p) j i in
  match r_types T (np_row p) with
  | RCLinear => v
  | RCLog => v * rc
  | RCLogit => v * rc * (1 - rc)
  end.

(** [compute_probabilities_by_parameter_tangent] for a parameter that moves the utility of product k
    by vx k, for one agent: probabilities and conditionals.  market.py 1004-1090, 1138-1148.
    (For beta, vx is the product characteristic; for sigma and pi it is v times x.) *)
Definition utility_tangent (m : market) (P C vx : nat -> R) : (nat -> R) * (nat -> R) :=
  if Nat.eqb (mH m) 0 then
    let t := fun j => P j * (vx j - sumn (mJ m) (fun k => P k * vx k)) in
    (fun j => if Req_EM_T (eps_scale m) 1 then t j else t j / eps_scale m, fun _ => 0)
  else
    let marginals := gsum m P in
    let A_sums := gsum m (fun k => C k * vx k) in
    let cond_t := fun j => C j * (vx j - A_sums (gid m j)) / (1 - rho m j) in
    let B := fun h => marginals h * A_sums h in
    let marg_t := fun h => B h - marginals h * sumn (mH m) B in
    (fun j => cond_t j * marginals (gid m j) + C j * marg_t (gid m j), cond_t).

(** The same for a nesting parameter associated with the groups in [assoc] (1 or 0).
    market.py 1092-1148.  The maximum is subtracted and added back for robustness; a group's log is
    finite because every group of the market has a product (full availability). *)
Definition rho_tangent (m : market) (P C delta mu assoc : nat -> R) : (nat -> R) * (nat -> R) :=
  let utilities := fun j => (delta j + mu j) / (1 - rho m j) in
  let marginals := gsum m P in
  let A := fun j => C j * utilities j / (1 - rho m j) in
  let A_sums := gsum m A in
  let cond_t := fun j => assoc (gid m j) * (A j - C j * A_sums (gid m j)) in
  let reduction := Rmax (maxn (pred (mJ m)) utilities) 0 in
  let B := fun h => marginals h *
             (A_sums h * (1 - grho m h) - (ln (gsum m (fun j => exp (utilities j - reduction)) h) + reduction)) in
  let marg_t := fun h => assoc h * B h - marginals h * sumn (mH m) (fun g => assoc g * B g) in
  (fun j => cond_t j * marginals (gid m j) + C j * marg_t (gid m j), cond_t).

(** [compute_shares_by_theta_jacobian], one column.  market.py 1357-1362. *)
Definition shares_by_theta (I : nat) (w : nat -> R) (tangent : nat -> nat -> R) (j : nat) : R :=
  sumn I (fun i => tangent i j * w i).

(** [compute_xi_by_theta_jacobian], one column.  market.py 1463-1478. *)
Definition xi_by_theta (solve : solver) (m : market) (I : nat) (w observed : nat -> R)
    (P C : nat -> nat -> R) (tangent : nat -> nat -> R) : (nat -> R) * bool :=
  solve (shares_by_xi_jacobian m I w observed P C) (fun j => - shares_by_theta I w tangent j).

(** [update_probabilities_by_parameter_tangent_mapping] for parameters other than beta and gamma:
    adding the contribution of xi.  market.py 965-1002. *)
Definition total_tangent (m : market) (P C tangent xi_jacobian : nat -> R) (j : nat) : R :=
  tangent j + sumn (mJ m) (fun l => probabilities_by_xi m P C l j * xi_jacobian l).
Definition total_cond_tangent (m : market) (C tangent xi_jacobian : nat -> R) (j : nat) : R :=
  tangent j + sumn (mJ m) (fun l => conditionals_by_xi m C l j * xi_jacobian l).

(** The market with other nesting parameters. *)
Definition with_rho (m : market) (r : nat -> R) : market :=
  mk_market (mJ m) (mH m) (gid m) (rho_multi m) r (eps_scale m).

(** Replacing one entry of a matrix. *)
Definition upd2 (s : nat -> nat -> R) (a b : nat) (t : R) : nat -> nat -> R :=
  fun k c => if Nat.eqb k a && Nat.eqb c b then t else s k c.
Definition sigma_with (p : nonlinear_parameter) (sigma : nat -> nat -> R) (t : R) : nat -> nat -> R :=
  match p with SigmaParameter k c => upd2 sigma k c t | PiParameter _ _ => sigma end.
Definition pi_with (p : nonlinear_parameter) (pi : nat -> nat -> R) (t : R) : nat -> nat -> R :=
  match p with SigmaParameter _ _ => pi | PiParameter k d => upd2 pi k d t end.
Definition np_value (p : nonlinear_parameter) (sigma pi : nat -> nat -> R) : R :=
  match p with SigmaParameter k c => sigma k c | PiParameter k d => pi k d end.

(** [compute_utility_derivatives_by_parameter_tangent] for sigma and pi.  market.py 904-932.
    [X2d j k] is [X2_derivatives]. *)
Definition utility_derivatives_tangent (m : market) (T : tastes) (sigma pi X2d : nat -> nat -> R)
    (p : nonlinear_parameter) (i j : nat) : R :=
  let t := X2d j (np_row p) * effective_characteristic T sigma pi p i j in
  if Req_EM_T (eps_scale m) 1 then t else t / eps_scale m.

(** [compute_capital_lamda_gamma_by_parameter_tangent].  market.py 1364-1408.  dP, dC and dU are the
    tangents of probabilities, conditionals and utility derivatives; [assoc] is zero for parameters
    other than rho. *)
Section CapitalTangents.
  Variables (m : market) (I : nat) (w : nat -> R) (P C U dP dC dU : nat -> nat -> R) (assoc : nat -> R).
  Definition pud_tangent (i j : nat) : R := dP i j * U i j + P i j * dU i j.
  Definition capital_lamda_tangent (j : nat) : R :=
    let d := sumn I (fun i => pud_tangent i j * w i) in
    if Nat.eqb (mH m) 0 then d
    else d / (1 - rho m j)
         + assoc (gid m j) / ((1 - rho m j) * (1 - rho m j)) * sumn I (fun i => P i j * U i j * w i).
  Definition capital_gamma_tangent (j k : nat) : R :=
    let g := sumn I (fun i => dP i j * (w i * (P i k * U i k))) + sumn I (fun i => P i j * (w i * pud_tangent i k)) in
    if Nat.eqb (mH m) 0 then g
    else g + membership m j k * rho m j / (1 - rho m j) *
           (sumn I (fun i => dC i j * (w i * (P i k * U i k))) + sumn I (fun i => C i j * (w i * pud_tangent i k)))
         + assoc (gid m j) * membership m j k / ((1 - rho m j) * (1 - rho m j))
           * sumn I (fun i => C i j * (w i * (P i k * U i k))).
  (** market.py 1448-1451. *)
  Definition capital_delta_tangent (ownership : nat -> nat -> R) (j k : nat) : R :=
    (capital_gamma_tangent k j - (if Nat.eqb k j then capital_lamda_tangent k else 0)) * ownership j k.
End CapitalTangents.

(** One column of [compute_eta_by_theta_jacobian] (market.py 1453-1454), where [inv] is
    [capital_delta_inverse], and of [compute_omega_by_theta_jacobian] (1480-1518) for parameters other
    than gamma; [costs_log] is [costs_type == 'log'] and then tilde costs are log costs. *)
Definition eta_by_theta (J : nat) (inv ddelta : nat -> nat -> R) (eta : nat -> R) (j : nat) : R :=
  - sumn J (fun l => sumn J (fun a => inv j a * ddelta a l) * eta l).
Definition omega_by_theta (costs_log : bool) (tilde_costs eta_jacobian : nat -> R) (j : nat) : R :=
  if costs_log then - eta_jacobian j / exp (tilde_costs j) else - eta_jacobian j.

(** [compute_tilde_costs] before truncation: prices minus eta, logged if costs are log-linear.
    problem_market.py 274-309, when no cost is clipped. *)
Definition tilde_costs_of (costs_log : bool) (prices eta : nat -> R) (j : nat) : R :=
  if costs_log then ln (prices j - eta j) else prices j - eta j.

(** The market after its mean utilities, sigma and pi have been set ([update_market] and
    [compute_mu]; market.py 131-140, 229-240), keeping data. *)
Definition tastes_at (M : full_market) (T : tastes) (delta : nat -> R) (sigma pi : nat -> nat -> R) : full_market :=
  mk_full_market (fm M) (fI M) (fw M) (fK1 M) (fX1 M) (fbeta M) (fK2 M) (fX2 M)
    (fun k j i => random_coefficients T sigma pi k j i) (var0 M) delta (X2_0 M).

(** [X2_derivatives]: compute_X2_derivatives, market.py 276-298. *)
Definition X2_derivatives (M : full_market) (j k : nat) : R :=
  if uses (fX2 M k) then dv1 (fX2 M k) j (var0 M j) else 0.

(** Parameters in beta that are not concentrated out.  Mean utilities come from inverting shares, so
    they do not depend on beta ([delta0] is kept); utility derivatives do.  [X1_derivatives]:
    compute_X1_derivatives, market.py 300-308. *)
Definition X1_derivatives (M : full_market) (j k : nat) : R :=
  if uses (fX1 M k) then dv1 (fX1 M k) j (var0 M j) else 0.
Definition with_beta (M : full_market) (k : nat) (y : R) : full_market :=
  mk_full_market (fm M) (fI M) (fw M) (fK1 M) (fX1 M) (fun c => if Nat.eqb c k then y else fbeta M c)
    (fK2 M) (fX2 M) (fcoef M) (var0 M) (delta0 M) (X2_0 M).

(** [compute_utility_derivatives_by_parameter_tangent] for the k-th parameter in beta.  market.py 904-932. *)
Definition beta_derivatives_tangent (M : full_market) (k i j : nat) : R :=
  if Req_EM_T (eps_scale (fm M)) 1 then X1_derivatives M j k else X1_derivatives M j k / eps_scale (fm M).

(** [update_probabilities_by_parameter_tangent_mapping] for beta: total derivatives are zero.
    market.py 977-982. *)
Definition beta_total_tangent (i j : nat) : R := 0.

(** [compute_omega_by_theta_jacobian] for a parameter in gamma with characteristic X3.
    market.py 1513-1516. *)
Definition omega_by_gamma (X3 : nat -> R) (j : nat) : R := - X3 j.

(** Mean utilities and transformed marginal costs net of linear parameters in theta, for one such
    parameter with characteristic X.  problem.py 1351-1359. *)
Definition net_of (v X : nat -> R) (b : R) (j : nat) : R := v j - X j * b.
