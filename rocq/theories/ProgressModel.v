(** Objective evaluations: reversion of numerical failures, error behaviour, the GMM objective and its
    gradient, and the projected gradient.  pyblp/economies/problem.py [_compute_progress] and [Progress]. *)
From Coq Require Import Reals List Bool Arith.
From Verif Require Import Base FltModel.
Import ListNotations.

(* ---------- Objective evaluations ---------- *)

(** Errors that this code records; others (from markets, fixed effect absorption and the IV regression) are
    only numbered. *)
Inductive error :=
  | DeltaReversion | MicroReversion | CostsReversion
  | XiJacobianReversion | MicroJacobianReversion | OmegaJacobianReversion
  | ObjectiveReversion | GradientReversion
  | OtherError (n : nat).
Definition error_eq_dec (a b : error) : {a = b} + {a <> b}.
Proof. repeat decide equality. Defined.

(** [x[~np.isfinite(x)] = last[~np.isfinite(x)]] on flattened arrays. *)
Fixpoint replace_bad (last raw : list flt) : list flt :=
  match last, raw with
  | l :: last', x :: raw' => (if ffin x then x else l) :: replace_bad last' raw'
  | _, _ => []
  end.
Definition any_bad (raw : list flt) : bool := existsb (fun x => negb (ffin x)) raw.
(** Replacement together with the error that records it.  problem.py 1288-1320. *)
Definition revert (e : error) (last raw : list flt) : list flt * list error :=
  (if any_bad raw then replace_bad last raw else raw, if any_bad raw then [e] else []).

(** What is kept of an evaluation (InitialProgress and Progress, 2212-2348).  Arrays are flattened.  The objective
    is a zero-dimensional array that other evaluations can share, so it is a location in a heap. *)
Definition heap := list flt.
Record progress := {
  objective : nat;
  gradient : list flt;
  next_delta : list flt;
  delta : list flt;
  tilde_costs : list flt;
  micro : list flt;
  xi_jacobian : list flt;
  omega_jacobian : list flt;
  micro_jacobian : list flt;
  errors : list error
}.

Inductive error_behavior := Raise | Revert | Punish.
Inductive delta_behavior := First | Last | Logit.

(** Computations that are modelled elsewhere, for a given problem, step and configuration.  Market-by-market
    computation is for all markets together.  Each returns what it computed and its errors. *)
Record computation (Theta : Type) := {
  supply : bool;                                             (* K3 > 0 *)
  micro_moments : bool;                                      (* MM > 0 *)
  random_coefficients : bool;                                (* K2 > 0 *)
  logit_delta : Theta -> list flt;
  fixed_point : Theta -> list flt -> list flt * list error;
  micro_values : Theta -> list flt -> list flt * list error;
  xi_by_theta : Theta -> list flt -> list flt * list error;
  micro_by_theta : Theta -> list flt -> list flt * list error;
  costs : Theta -> list flt -> list flt * list error;
  omega_by_theta : Theta -> list flt -> list flt -> list flt * list error;
  (* objective value, given delta, costs and micro moments *)
  gmm_objective : Theta -> list flt -> list flt -> list flt -> flt * list error;
  (* gradient, given these and Jacobians of delta, costs and micro moments *)
  gmm_gradient : Theta -> list flt -> list flt -> list flt -> list flt -> list flt -> list flt -> list flt
}.
Arguments supply {Theta}. Arguments micro_moments {Theta}. Arguments random_coefficients {Theta}.
Arguments logit_delta {Theta}. Arguments fixed_point {Theta}. Arguments micro_values {Theta}.
Arguments xi_by_theta {Theta}. Arguments micro_by_theta {Theta}. Arguments costs {Theta}.
Arguments omega_by_theta {Theta}. Arguments gmm_objective {Theta}. Arguments gmm_gradient {Theta}.

Record configuration := {
  on_error : error_behavior;
  punishment : flt;
  starting : delta_behavior
}.

(** Market-level quantities before reversion.  problem.py 1019-1140 and pyblp/markets/problem_market.py 20-200:
    delta that is not finite is replaced by its last value when computing everything else, and similarly for
    costs in their Jacobian.  Without a gradient, [ProblemMarket.solve] returns a Jacobian of xi that is full
    of NaN, which is stored; those of omega and micro moments stay zero (or NaN without a supply side).  Finite differences for Jacobians are
    not modelled. *)
Record raw := {
  raw_delta : list flt; raw_micro : list flt; raw_costs : list flt;
  raw_xi_jacobian : list flt; raw_micro_jacobian : list flt; raw_omega_jacobian : list flt;
  raw_errors : list error
}.
Definition zeros (l : list flt) : list flt := map (fun _ => Num 0) l.
Definition nans (l : list flt) : list flt := map (fun _ => NaN) l.

Section Evaluate.
  Context {Theta : Type}.
  Variable c : computation Theta.
  Variable cfg : configuration.

  Definition start_delta (p : progress) (theta : Theta) : list flt :=
    match starting cfg with Logit => logit_delta c theta | _ => next_delta p end.

  Definition market_by_market (p : progress) (theta : Theta) (compute_gradient : bool) : raw :=
    let d := fixed_point c theta (start_delta p theta) in
    let valid_delta := replace_bad (delta p) (fst d) in
    let m := if micro_moments c then micro_values c theta valid_delta else ([], []) in
    let jx := if compute_gradient then xi_by_theta c theta valid_delta else (nans (xi_jacobian p), []) in
    let jm := if (compute_gradient && micro_moments c)%bool then micro_by_theta c theta valid_delta
              else (zeros (micro_jacobian p), []) in
    let k := if supply c then costs c theta valid_delta else ([], []) in
    let valid_costs := replace_bad (tilde_costs p) (fst k) in
    let jo := if (compute_gradient && supply c)%bool then omega_by_theta c theta valid_delta valid_costs
              else (if supply c then zeros (omega_jacobian p) else nans (omega_jacobian p), []) in
    {| raw_delta := fst d; raw_micro := fst m; raw_costs := fst k;
       raw_xi_jacobian := fst jx; raw_micro_jacobian := fst jm; raw_omega_jacobian := fst jo;
       raw_errors := snd d ++ snd jx ++ snd m ++ snd jm ++ snd k ++ snd jo |}.

  (** Without random coefficients, a supply side, micro moments and a gradient there is nothing to solve
      (1053-1055).  (There is then a gradient if and only if there are parameters.) *)
  Definition raw_quantities (p : progress) (theta : Theta) (compute_gradient : bool) : raw :=
    if (random_coefficients c || supply c || micro_moments c || compute_gradient)%bool
    then market_by_market p theta compute_gradient
    else {| raw_delta := logit_delta c theta; raw_micro := []; raw_costs := [];
            raw_xi_jacobian := zeros (xi_jacobian p); raw_micro_jacobian := zeros (micro_jacobian p);
            raw_omega_jacobian := nans (omega_jacobian p); raw_errors := [] |}.

  (** [objective *= punishment] in place. *)
  Fixpoint set_cell (h : heap) (n : nat) (x : flt) : heap :=
    match h, n with
    | [], _ => []
    | _ :: h', 0 => x :: h'
    | y :: h', S n' => y :: set_cell h' n' x
    end.
  Definition cell (h : heap) (n : nat) : flt := nth n h NaN.

  (** [_compute_progress] without Hessians and simulation covariances.  problem.py 986-1566.
      None: MultipleErrors was raised. *)
  Definition evaluate (h : heap) (p : progress) (theta : Theta) (compute_gradient : bool) : heap * option progress :=
    let r := raw_quantities p theta compute_gradient in
    (* replace invalid elements with their last values, 1287-1320 *)
    let d := revert DeltaReversion (delta p) (raw_delta r) in
    let m := if micro_moments c then revert MicroReversion (micro p) (raw_micro r) else (raw_micro r, []) in
    let k := if supply c then revert CostsReversion (tilde_costs p) (raw_costs r) else (raw_costs r, []) in
    let jx := if compute_gradient then revert XiJacobianReversion (xi_jacobian p) (raw_xi_jacobian r)
              else (raw_xi_jacobian r, []) in
    let jm := if (compute_gradient && micro_moments c)%bool
              then revert MicroJacobianReversion (micro_jacobian p) (raw_micro_jacobian r)
              else (raw_micro_jacobian r, []) in
    let jo := if (compute_gradient && supply c)%bool
              then revert OmegaJacobianReversion (omega_jacobian p) (raw_omega_jacobian r)
              else (raw_omega_jacobian r, []) in
    (* the objective is a new array, or the last one if computation failed, 1523-1531 *)
    let o := gmm_objective c theta (fst d) (fst k) (fst m) in
    let failed := negb (ffin (fst o)) in
    let h1 := h ++ [fst o] in
    let where1 := if failed then objective p else length h in
    (* gradient, 1533-1545 *)
    let g := if compute_gradient
             then revert GradientReversion (gradient p) (gmm_gradient c theta (fst d) (fst k) (fst m) (fst jx) (fst jo) (fst jm))
             else (nans (gradient p), []) in
    let errs := raw_errors r ++ snd d ++ snd m ++ snd k ++ snd jx ++ snd jm ++ snd jo ++ snd o
                ++ (if failed then [ObjectiveReversion] else []) ++ snd g in
    (* handle any errors, 1547-1557 *)
    let finish h' where' g' :=
      (h', Some {| objective := where'; gradient := g';
        (* 1560-1562 *)
        next_delta := match starting cfg with First => next_delta p | _ => fst d end;
        delta := fst d; tilde_costs := fst k; micro := fst m;
        xi_jacobian := fst jx; omega_jacobian := fst jo; micro_jacobian := fst jm; errors := errs |}) in
    match errs with
    | [] => finish h1 where1 (fst g)
    | _ =>
        match on_error cfg with
        | Raise => (h1, None)
        | Revert => finish (set_cell h1 where1 (fmul (cell h1 where1) (punishment cfg))) where1 (fst g)
        | Punish => finish (h1 ++ [punishment cfg]) (S (length h))
                      (if compute_gradient then zeros (gradient p) else fst g)
        end
    end.

  (** The evaluations of a step, each starting from the progress of the last one.  [wrapper], 872-911.
      Whoever asks for an evaluation gets a copy of the objective (pyblp/configurations/optimization.py 301,
      [float(np.squeeze(objective))]) and the progress itself. *)
  Fixpoint evaluations (h : heap) (p : progress) (l : list (Theta * bool)) : heap * list (flt * progress) :=
    match l with
    | [] => (h, [])
    | (theta, compute_gradient) :: l' =>
        match evaluate h p theta compute_gradient with
        | (h', None) => (h', [])
        | (h', Some p') =>
            let (h'', rest) := evaluations h' p' l' in (h'', (cell h' (objective p'), p') :: rest)
        end
    end.
  (** The heap and progress after a history without exceptions. *)
  Fixpoint after (h : heap) (p : progress) (l : list (Theta * bool)) : option (heap * progress) :=
    match l with
    | [] => Some (h, p)
    | (theta, compute_gradient) :: l' =>
        match evaluate h p theta compute_gradient with
        | (h', None) => None
        | (h', Some p') => after h' p' l'
        end
    end.
End Evaluate.

(* ---------- GMM objective and gradient ---------- *)

Local Open Scope R_scope.

(** [objective = mean_g.T @ W @ mean_g] and [gradient = 2 * (mean_G.T @ W @ mean_g)], both times N if they are
    scaled.  problem.py 1515-1540.  There are M moments; matrices are functions of indices. *)
Definition objective_scale (scale_objective : bool) (N : nat) : R := if scale_objective then INR N else 1.
Definition gmm_value (scale_objective : bool) (N M : nat) (W : nat -> nat -> R) (g : nat -> R) : R :=
  sumn M (fun i => g i * sumn M (fun j => W i j * g j)) * objective_scale scale_objective N.
Definition gmm_gradient_at (scale_objective : bool) (N M : nat) (W : nat -> nat -> R) (g : nat -> R)
    (G : nat -> nat -> R) (p : nat) : R :=
  2 * sumn M (fun i => G i p * sumn M (fun j => W i j * g j)) * objective_scale scale_objective N.

(** Demand and supply moments given y = delta (or transformed costs) stacked, X, Z: each moment [g_i] is an average
    over all rows of an instrument times the error term.  [compute_gmm_moments_mean] and
    [compute_gmm_moments_jacobian_mean], pyblp/utilities/statistics.py 152-164.  Rows of demand and supply are
    stacked, and instruments are zero for rows of the other side. *)
Definition residual (K : nat) (X : nat -> nat -> R) (b : nat -> R) (y : nat -> R) (n : nat) : R :=
  y n - sumn K (fun k => X n k * b k).
Definition iv_moment (N rows : nat) (Z : nat -> nat -> R) (u : nat -> R) (i : nat) : R :=
  sumn rows (fun n => Z n i * u n) / INR N.

(** [IV.estimate]: covariances @ X'Z @ W @ Z'y, where covariances is the inverse of X'Z W Z'X, with the part of W
    for demand and supply moments.  statistics.py 13-67. *)
Definition iv_information (rows MI : nat) (X Z W : nat -> nat -> R) (k l : nat) : R :=
  sumn MI (fun i => sumn rows (fun n => X n k * Z n i) *
                    sumn MI (fun j => W i j * sumn rows (fun n => X n l * Z n j))).
Definition iv_parameters (rows MI K : nat) (X Z W A : nat -> nat -> R) (y : nat -> R) (k : nat) : R :=
  sumn K (fun l => A k l * sumn MI (fun i => sumn rows (fun n => X n l * Z n i) *
                                            sumn MI (fun j => W i j * sumn rows (fun n => Z n j * y n)))).

(** Moments of an evaluation: MI demand and supply moments followed by micro moments.  problem.py 1523. *)
Definition stack_moments (MI : nat) (iv micro : nat -> R) (i : nat) : R :=
  if Nat.ltb i MI then iv i else micro (i - MI)%nat.
Definition evaluation_moments (N rows MI K : nat) (X Z W A : nat -> nat -> R) (y micro : nat -> R) : nat -> R :=
  stack_moments MI (iv_moment N rows Z (residual K X (iv_parameters rows MI K X Z W A y) y)) micro.
(** With covariance moments, Jacobians of y become those of residuals: jacobian - X @ covariances @ X'Z @ W @ Z'jacobian.
    statistics.py 60-65. *)
Definition converted (rows MI K : nat) (X Z W A : nat -> nat -> R) (jacobian : nat -> nat -> R) (n p : nat) : R :=
  jacobian n p - sumn K (fun k => X n k * iv_parameters rows MI K X Z W A (fun m => jacobian m p) k).
(** [mean_G] uses Jacobians of delta and costs in place of those of xi and omega unless there are covariance
    moments (convert_jacobians).  problem.py 1374-1380, 1533-1536. *)
Definition mean_G (N rows MI : nat) (Z : nat -> nat -> R) (y_jacobian : nat -> nat -> R) (micro_jacobian : nat -> nat -> R)
    (i p : nat) : R :=
  stack_moments MI (iv_moment N rows Z (fun n => y_jacobian n p)) (fun m => micro_jacobian m p) i.

(* ---------- Projected gradient ---------- *)

(** Elements at bounds keep only the part of the gradient that points into the box.  problem.py 2350-2361. *)
Definition projected_element (theta : R) (lb ub : flt) (g : R) : R :=
  if (fltb lb (Num theta) && fltb (Num theta) ub)%bool then g
  else if fleb (Num theta) lb then Rmin 0 g
  else if fleb ub (Num theta) then Rmax 0 g
  else g.
(** The maximum absolute value of the P elements, for positive P.  problem.py 2363-2367. *)
Definition projected_norm (P : nat) (theta : nat -> R) (lb ub : nat -> flt) (g : nat -> R) : R :=
  maxn (P - 1) (fun p => Rabs (projected_element (theta p) (lb p) (ub p) (g p))).
