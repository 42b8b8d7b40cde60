(** Model of the GMM objective and its analytic gradient as functions of theta, from markets up: how the pieces of
    DerivModel, NestModel and ProgressModel are put together.  Definitions only.

    Source: /repo/pyblp/economies/problem.py 1040-1540, markets/problem_market.py 31-185 and 274-340,
    markets/market.py 694-734, 935-1002, 1364-1518. *)
From Coq Require Import Reals List Bool Arith.
From Verif Require Import ProgressModel Base DemandModel SupplyModel DerivModel MicroModel NestModel.
Local Open Scope R_scope.

(** What a market adds to [full_market]: its tastes, the number of each nesting group among all nesting IDs (zero
    if there is a single nesting parameter), columns of X1 and X3 before absorption, shares and ownership. *)
Record economy_market := mk_economy_market {
  e_market : full_market;
  e_tastes : tastes;
  e_group : nat -> nat;
  e_X1 : nat -> nat -> R;
  e_X3 : nat -> nat -> R;
  e_shares : nat -> R;
  e_ownership : nat -> nat -> R
}.

(** Values of all parameters, expanded from theta.  parameters.py 659-700. *)
Record point := mk_point {
  v_sigma : nat -> nat -> R;
  v_pi : nat -> nat -> R;
  v_rho : nat -> R;
  v_beta : nat -> R;
  v_gamma : nat -> R
}.

(** Unfixed parameters.  parameters.py 45-137. *)
Inductive parameter :=
| Nonlinear (q : nonlinear_parameter)
| Rho (r : nat)
| Beta (k : nat)
| Gamma (k : nat).

Definition value_at (v : point) (p : parameter) : R :=
  match p with
  | Nonlinear q => np_value q (v_sigma v) (v_pi v)
  | Rho r => v_rho v r
  | Beta k => v_beta v k
  | Gamma k => v_gamma v k
  end.
Definition moved (v : point) (p : parameter) (y : R) : point :=
  match p with
  | Nonlinear q => mk_point (sigma_with q (v_sigma v) y) (pi_with q (v_pi v) y) (v_rho v) (v_beta v) (v_gamma v)
  | Rho r => mk_point (v_sigma v) (v_pi v) (upd (v_rho v) r y) (v_beta v) (v_gamma v)
  | Beta k => mk_point (v_sigma v) (v_pi v) (v_rho v) (upd (v_beta v) k y) (v_gamma v)
  | Gamma k => mk_point (v_sigma v) (v_pi v) (v_rho v) (v_beta v) (upd (v_gamma v) k y)
  end.

(** A [ProblemMarket] at parameter values and mean utilities.  market.py 66-163: 152-158 select the nesting
    parameters of the market's groups. *)
Definition market_of (e : economy_market) (v : point) (delta : nat -> R) : full_market :=
  let M := e_market e in
  mk_full_market (with_rho (fm M) (fun h => v_rho v (e_group e h))) (fI M) (fw M) (fK1 M) (fX1 M) (v_beta v)
    (fK2 M) (fX2 M) (fun k j i => random_coefficients (e_tastes e) (v_sigma v) (v_pi v) k j i) (var0 M) delta (X2_0 M).
Definition mu_at (e : economy_market) (v : point) : nat -> nat -> R := mu_of (e_tastes e) (v_sigma v) (v_pi v).

Section Market.
  (** [approximately_solve], for each number of products. *)
  Variables (solve : nat -> solver) (e : economy_market) (v : point) (delta : nat -> R).
  Let M := market_of e v delta.
  Let m := fm M.
  Let P := probs m delta (mu_at e v).
  Let C := conds m delta (mu_at e v).

  (** [get_group_associations].  parameters.py 90-108. *)
  Definition associations (p : parameter) (h : nat) : R :=
    match p with Rho r => indR (Nat.eqb (e_group e h) r) | _ => 0 end.

  (** How a parameter moves utilities other than through nesting.  market.py 1015-1036. *)
  Definition utility_direction (p : parameter) (i k : nat) : R :=
    match p with
    | Nonlinear q => r_X2 (e_tastes e) k (np_row q) * effective_characteristic (e_tastes e) (v_sigma v) (v_pi v) q i k
    | Beta k0 => e_X1 e k k0
    | _ => 0
    end.

  (** [compute_probabilities_by_parameter_tangent].  market.py 1004-1148. *)
  Definition own_tangent (p : parameter) (i : nat) : (nat -> R) * (nat -> R) :=
    match p with
    | Rho _ => rho_tangent m (P i) (C i) delta (mu_at e v i) (associations p)
    | Gamma _ => (fun _ => 0, fun _ => 0)
    | _ => utility_tangent m (P i) (C i) (utility_direction p i)
    end.

  (** One column of [compute_xi_by_theta_jacobian].  market.py 1463-1478. *)
  Definition xi_column (p : parameter) : (nat -> R) * bool :=
    xi_by_theta (solve (mJ m)) m (fI M) (fw M) (e_shares e) P C (fun i => fst (own_tangent p i)).

  (** [update_probabilities_by_parameter_tangent_mapping].  market.py 965-1002. *)
  Definition updated_tangent (p : parameter) (i j : nat) : R :=
    match p with
    | Beta _ | Gamma _ => beta_total_tangent i j
    | _ => total_tangent m (P i) (C i) (fst (own_tangent p i)) (fst (xi_column p)) j
    end.
  Definition updated_conditionals (p : parameter) (i j : nat) : R :=
    match p with
    | Beta _ | Gamma _ => beta_total_tangent i j
    | _ => total_cond_tangent m (C i) (snd (own_tangent p i)) (fst (xi_column p)) j
    end.

  (** [compute_utility_derivatives_by_parameter_tangent].  market.py 904-932. *)
  Definition derivatives_tangent (p : parameter) (i j : nat) : R :=
    match p with
    | Nonlinear q => utility_derivatives_tangent m (e_tastes e) (v_sigma v) (v_pi v) (X2_derivatives M) q i j
    | Beta k => beta_derivatives_tangent M k i j
    | _ => 0
    end.

  (** [compute_eta]: with the inverse when Jacobians are computed, and otherwise by solving.  market.py 694-734.
      [inverse] is [approximately_invert]. *)
  Variable inverse : nat -> (nat -> nat -> R) -> (nat -> nat -> R) * bool.
  Definition kept_inverse : (nat -> nat -> R) * bool := inverse (mJ m) (capital_delta M (e_ownership e) (var0 M)).
  Definition eta_of (keep : bool) : (nat -> R) * bool :=
    if keep then (fun j => sumn (mJ m) (fun k => fst kept_inverse j k * e_shares e k), snd kept_inverse)
    else compute_eta (solve (mJ m)) M (e_ownership e) (e_shares e).

  (** One column of [compute_eta_by_theta_jacobian] and [compute_omega_by_theta_jacobian].  market.py 1410-1518,
      when no cost is clipped. *)
  Definition eta_column (p : parameter) : nat -> R :=
    eta_by_theta (mJ m) (fst kept_inverse)
      (capital_delta_tangent m (fI M) (fw M) P C (utility_derivatives M false (var0 M)) (updated_tangent p)
         (updated_conditionals p) (derivatives_tangent p) (associations p) (e_ownership e)) (fst (eta_of true)).
  Definition tilde_costs_at (costs_log keep : bool) : nat -> R :=
    tilde_costs_of costs_log (var0 M) (fst (eta_of keep)).
  Definition omega_column (costs_log : bool) (p : parameter) : nat -> R :=
    match p with
    | Gamma k => omega_by_gamma (fun j => e_X3 e j k)
    | _ => omega_by_theta costs_log (tilde_costs_at costs_log true) (eta_column p)
    end.

  (** Probabilities of first and second choices in micro data and their tangents (no product IDs are eliminated and
      all products are available).  market.py 1629-1906. *)
  Definition micro_cell (i : nat) : cell -> R := nested_cell m None None delta (mu_at e v i).
  Definition micro_cell_tangent (p : parameter) (i : nat) : cell -> R :=
    match p with
    | Nonlinear _ => nested_cell_tangent m None None delta (mu_at e v i) (fst (xi_column p))
        (choice_utility_tangent m delta (mu_at e v i) (utility_direction p i))
    | Rho _ => nested_cell_tangent m None None delta (mu_at e v i) (fst (xi_column p))
        (choice_nesting_tangent m delta (mu_at e v i) (associations p))
    | _ => fun _ => 0
    end.
End Market.

(** A micro moment: numbers of its parts, its value in the data, and the user's functions.  micro.py. *)
Record micro_moment := mk_micro_moment {
  mo_parts : list nat;
  mo_value : R;
  mo_compute : (nat -> R) -> R;
  mo_gradient : (nat -> R) -> nat -> R
}.

(** The problem, with T markets.  Row n of product data is product [snd (ec_row n)] of market [fst (ec_row n)].
    Linear parameters flagged as eliminated are concentrated out, the others are in theta.  Part q is computed from the listed
    surveys, each in a market.  X, Z, W and A are as in ProgressModel; [ec_absorb] is the matrix that residualizes
    stacked rows with respect to fixed effects (the identity if there are none). *)
Record economy := mk_economy {
  ec_T : nat;
  ec_market : nat -> economy_market;
  ec_N : nat;
  ec_row : nat -> nat * nat;
  ec_supply : bool;
  ec_costs_log : bool;
  ec_K1 : nat;
  ec_eliminated_beta : nat -> bool;
  ec_K3 : nat;
  ec_eliminated_gamma : nat -> bool;
  ec_parts : nat -> list (nat * survey);
  ec_moments : list micro_moment;
  ec_MI : nat;
  ec_K : nat;
  ec_X : nat -> nat -> R;
  ec_Z : nat -> nat -> R;
  ec_W : nat -> nat -> R;
  ec_A : nat -> nat -> R;
  ec_absorb : nat -> nat -> R;
  ec_scale : bool
}.

Section Economy.
  Variables (solve : nat -> solver) (inverse : nat -> (nat -> nat -> R) -> (nat -> nat -> R) * bool).
  Variable ec : economy.
  (** The inversion of shares: mean utilities of each market. *)
  Variable delta_of : point -> nat -> nat -> R.

  (** Subtracting contributions of linear parameters in theta.  problem.py 1351-1359. *)
  Definition iv_delta (v : point) (s j : nat) : R :=
    delta_of v s j - sumn (ec_K1 ec) (fun k => if ec_eliminated_beta ec k then 0 else e_X1 (ec_market ec s) j k * v_beta v k).
  Definition iv_tilde_costs (keep : bool) (v : point) (s j : nat) : R :=
    tilde_costs_at solve (ec_market ec s) v (delta_of v s) inverse (ec_costs_log ec) keep j
    - sumn (ec_K3 ec) (fun k => if ec_eliminated_gamma ec k then 0 else e_X3 (ec_market ec s) j k * v_gamma v k).

  (** Demand rows, then supply rows if there is a supply side, and columns of their Jacobian.  problem.py 1383-1470:
      moments in levels. *)
  Definition rows : nat := if ec_supply ec then (ec_N ec + ec_N ec)%nat else ec_N ec.
  Definition stacked (keep : bool) (v : point) (n : nat) : R :=
    if Nat.ltb n (ec_N ec) then iv_delta v (fst (ec_row ec n)) (snd (ec_row ec n))
    else iv_tilde_costs keep v (fst (ec_row ec (n - ec_N ec))) (snd (ec_row ec (n - ec_N ec))).
  Definition stacked_column (v : point) (p : parameter) (n : nat) : R :=
    if Nat.ltb n (ec_N ec) then
      let s := fst (ec_row ec n) in
      fst (xi_column solve (ec_market ec s) v (delta_of v s) p) (snd (ec_row ec n))
    else
      let s := fst (ec_row ec (n - ec_N ec)) in
      omega_column solve (ec_market ec s) v (delta_of v s) inverse (ec_costs_log ec) p (snd (ec_row ec (n - ec_N ec))).
  (** Absorption applies to the rows but not to Jacobians.  problem.py 1361-1380. *)
  Definition absorbed (y : nat -> R) (n : nat) : R := sumn rows (fun r => ec_absorb ec n r * y r).

  (** Micro moments and columns of their Jacobian.  problem.py 1163-1232. *)
  Definition part_value_at (v : point) (q : nat) : R :=
    surveys_part (map (fun d => (snd d, micro_cell (ec_market ec (fst d)) v (delta_of v (fst d)))) (ec_parts ec q)).
  Definition part_column (v : point) (p : parameter) (q : nat) : R :=
    surveys_part_jacobian (map (fun d =>
      (snd d, micro_cell (ec_market ec (fst d)) v (delta_of v (fst d)),
       micro_cell_tangent solve (ec_market ec (fst d)) v (delta_of v (fst d)) p)) (ec_parts ec q)).
  Definition no_moment : micro_moment := mk_micro_moment nil 0 (fun _ => 0) (fun _ _ => 0).
  Definition micro_at (v : point) (m : nat) : R :=
    let mo := nth m (ec_moments ec) no_moment in
    mo_value mo - mo_compute mo (fun r => part_value_at v (nth r (mo_parts mo) O)).
  Definition micro_column (v : point) (p : parameter) (m : nat) : R :=
    let mo := nth m (ec_moments ec) no_moment in
    - sumn (length (mo_parts mo)) (fun r =>
        mo_gradient mo (fun r => part_value_at v (nth r (mo_parts mo) O)) r * part_column v p (nth r (mo_parts mo) O)).

  (** The objective, and its gradient for parameters in theta.  problem.py 1495-1540. *)
  Definition MM : nat := length (ec_moments ec).
  Definition moments_at (keep : bool) (v : point) : nat -> R :=
    evaluation_moments (ec_N ec) rows (ec_MI ec) (ec_K ec) (ec_X ec) (ec_Z ec) (ec_W ec) (ec_A ec)
      (absorbed (stacked keep v)) (micro_at v).
  Definition objective_at (keep : bool) (v : point) : R :=
    gmm_value (ec_scale ec) (ec_N ec) (ec_MI ec + MM) (ec_W ec) (moments_at keep v).
  Definition gradient_at (theta : nat -> parameter) (v : point) (i : nat) : R :=
    gmm_gradient_at (ec_scale ec) (ec_N ec) (ec_MI ec + MM) (ec_W ec) (moments_at true v)
      (mean_G (ec_N ec) rows (ec_MI ec) (ec_Z ec) (fun n p => stacked_column v (theta p) n) (fun m p => micro_column v (theta p) m)) i.
End Economy.
