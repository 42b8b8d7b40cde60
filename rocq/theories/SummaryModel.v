(** Summaries of results as they are displayed: labels and cells of tables.  pyblp/results/simulation_results.py 175-240,
    pyblp/results/problem_results.py 759-832, pyblp/results/bootstrapped_results.py 121-175, pyblp/economies/simulation.py
    814-835, pyblp/utilities/algebra.py 14-23.  Layouts of tables are in TableModel.  Definitions only. *)
From Coq Require Import Ascii String Reals ZArith List Arith Bool.
From Verif Require Import FltModel TableModel FormatModel DisplayModel.
Import ListNotations.

(** Python's [max] and [min] of two numbers: the first unless the second is larger or smaller. *)
Definition python_max (a b : flt) : flt := if fltb a b then b else a.
Definition python_min (a b : flt) : flt := if fltb b a then b else a.
(** [x.max()] and [x.min()] of arrays, which are NaN if any element is.  (Those of empty arrays are errors.) *)
Definition array_max (x : fvec) : flt := match x with [] => NaN | a :: l => fold_left fmax l a end.
Definition array_min (x : fvec) : flt := match x with [] => NaN | a :: l => fold_left fmin l a end.
Definition absolute (x : flt) : flt := match x with Num a => Num (Rabs a) | PInf | NInf => PInf | NaN => NaN end.

(* ---------- Simulation results ---------- *)

(** Norms of a firm's profit gradient.  simulation.py 820-824. *)
Definition firm_norm (gradient : fvec) : flt := match gradient with [] => NaN | _ => array_max (map absolute gradient) end.
(** Largest norms, of firms in markets.  simulation_results.py 218-223. *)
Definition max_norm (norms : list (list flt)) : flt :=
  fold_left (fun m market => fold_left (fun m norm => if ffin norm then python_max m norm else m) market m) norms NInf.
(** Smallest and largest eigenvalues of profit Hessians.  simulation_results.py 229-235. *)
Definition extreme_step (m : flt * flt) (eigenvalues : fvec) : flt * flt :=
  if existsb ffin eigenvalues then (python_min (fst m) (array_min eigenvalues), python_max (snd m) (array_max eigenvalues)) else m.
Definition extreme_eigenvalues (eigenvalues : list (list fvec)) : flt * flt :=
  fold_left (fun m market => fold_left extreme_step market m) eigenvalues (PInf, NInf).

(** Statistics of a fixed point routine: whether it converged, its iterations and its evaluations. *)
Notation stats := (bool * (nat * nat))%type.
Definition stat_iterations (s : stats) : nat := fst (snd s).
Definition stat_evaluations (s : stats) : nat := snd (snd s).

(** [str] of simulation results, for statistics of markets in the order of their IDs.  Gradients and eigenvalues are [None] if they
    were not computed.  simulation_results.py 187-198, 203-216, 225-226, 237-238. *)
Section Simulation.
  Variables (digits : nat) (seconds : R) (markets : list stats) (gradients : option (list (list fvec))) (eigenvalues : option (list (list fvec))).
  Definition simulation_header : list label :=
    [[lit "Computation"; lit "Time"]; [lit "Fixed Point"; lit "Failures"]; [lit "Fixed Point"; lit "Iterations"]; [lit "Contraction"; lit "Evaluations"]] ++
    (match gradients with Some _ => [[lit "Profit Gradients"; lit "Max Norm"]] | None => [] end) ++
    (match eigenvalues with Some _ => [[lit "Profit Hessians"; lit "Min Eigenvalue"]; [lit "Profit Hessians"; lit "Max Eigenvalue"]] | None => [] end).
  Definition simulation_cells : list text :=
    [format_seconds seconds; number_of (count_true (map (fun s => negb (fst s)) markets));
     number_of (total (map stat_iterations markets)); number_of (total (map stat_evaluations markets))] ++
    (match gradients with Some g => [format_number digits (max_norm (map (map firm_norm) g))] | None => [] end) ++
    (match eigenvalues with
     | Some e => [format_number digits (fst (extreme_eigenvalues e)); format_number digits (snd (extreme_eigenvalues e))]
     | None => [] end).
End Simulation.

(* ---------- Problem results ---------- *)

(** [compute_condition_number] of a matrix, given what [np.linalg.cond] returns unless it fails.  algebra.py 14-23. *)
Definition condition_number (cond : option flt) (x : fvec) : flt :=
  match x with
  | [] => Num 0
  | _ => if vfin x then match cond with Some c => c | None => NaN end else NaN
  end.

(** What is displayed about results.  Matrices are flattened, and with each is what [np.linalg.cond] returns.  A reduced Hessian
    of one parameter is a number. *)
Record results := mk_results {
  result_step : nat; result_objective : flt; projected_norm : flt; bounds_on_parameters : bool; hessian_eigenvalues : fvec; reduced_hessian : flt;
  finite_shares_bounds : bool; shares_clipped : list bool; finite_costs_bounds : bool; costs_clipped : list bool;
  weights : fvec; weights_cond : option flt; covariances : fvec; covariances_cond : option flt }.

(** problem_results.py 759-806. *)
Section Problem.
  Variables (digits : nat) (r : results).
  Definition shows_norm : bool := ffin (projected_norm r).
  Definition shows_hessian : bool := existsb ffin (hessian_eigenvalues r).
  Definition one_eigenvalue : bool := length (hessian_eigenvalues r) =? 1.
  Definition hessian_type : text := if bounds_on_parameters r then lit "Reduced" else [].
  Definition shows_weights : bool := 0 <? result_step r.
  Definition shows_covariances : bool := existsb ffin (covariances r) && (1 <? length (covariances r)).
  Definition summary_header : list label :=
    [[lit "GMM"; lit "Step"]; [lit "Objective"; lit "Value"]] ++
    (if shows_norm then [if bounds_on_parameters r then [lit "Projected"; lit "Gradient Norm"] else [lit "Gradient"; lit "Norm"]] else []) ++
    (if shows_hessian
     then if one_eigenvalue then [[hessian_type; lit "Hessian"]]
       else [[hessian_type ++ lit " Hessian"; lit "Min Eigenvalue"]; [hessian_type ++ lit " Hessian"; lit "Max Eigenvalue"]]
     else []) ++
    (if finite_shares_bounds r then [[lit "Clipped"; lit "Shares"]] else []) ++
    (if finite_costs_bounds r then [[lit "Clipped"; lit "Costs"]] else []) ++
    (if shows_weights then [[lit "Weighting Matrix"; lit "Condition Number"]] else []) ++
    (if shows_covariances then [[lit "Covariance Matrix"; lit "Condition Number"]] else []).
  Definition summary_cells : list text :=
    [number_of (result_step r); format_number digits (result_objective r)] ++
    (if shows_norm then [format_number digits (projected_norm r)] else []) ++
    (if shows_hessian
     then if one_eigenvalue then [format_number digits (reduced_hessian r)]
       else [format_number digits (array_min (hessian_eigenvalues r)); format_number digits (array_max (hessian_eigenvalues r))]
     else []) ++
    (if finite_shares_bounds r then [number_of (count_true (shares_clipped r))] else []) ++
    (if finite_costs_bounds r then [number_of (count_true (costs_clipped r))] else []) ++
    (if shows_weights then [format_number digits (condition_number (weights_cond r) (weights r))] else []) ++
    (if shows_covariances then [format_number digits (condition_number (covariances_cond r) (covariances r))] else []).
End Problem.

(** Cumulative statistics: total time, number of parameters, whether optimization converged, its iterations, evaluations of the
    objective, and arrays of iterations and evaluations of the contraction.  problem_results.py 810-832. *)
Section Cumulative.
  Variables (seconds : R) (P : nat) (converged : bool) (iterations evaluations : nat) (fp_iterations contraction_evaluations : list nat).
  Definition shows_contraction : bool := existsb (fun n => 0 <? n) contraction_evaluations.
  Definition cumulative_header : list label :=
    [[lit "Computation"; lit "Time"]] ++
    (if 0 <? P then [[lit "Optimizer"; lit "Converged"]; [lit "Optimization"; lit "Iterations"]] else []) ++
    [[lit "Objective"; lit "Evaluations"]] ++
    (if shows_contraction then [[lit "Fixed Point"; lit "Iterations"]; [lit "Contraction"; lit "Evaluations"]] else []).
  Definition cumulative_cells : list text :=
    [format_seconds seconds] ++
    (if 0 <? P then [if converged then lit "Yes" else lit "No"; number_of iterations] else []) ++
    [number_of evaluations] ++
    (if shows_contraction then [number_of (total fp_iterations); number_of (total contraction_evaluations)] else []).
End Cumulative.

(* ---------- Bootstrapped results ---------- *)

(** Arrays of statistics have a row for each market and a column for each draw.  bootstrapped_results.py 152-164. *)
Definition bootstrapped_array {M T : Type} (f : stats -> T) (iteration_stats : nat -> M -> stats) (draws : nat) (markets : list M) : list (list T) :=
  map (fun t => map (fun d => f (iteration_stats d t)) (seq 0 draws)) markets.
(** bootstrapped_results.py 166-174. *)
Section Bootstrapped.
  Variables (seconds : R) (draws : nat) (iterations evaluations : list (list nat)).
  Let sum_all (x : list (list nat)) : nat := total (map total x).
  Definition shows_fixed_point : bool := (0 <? sum_all iterations) || (0 <? sum_all evaluations).
  Definition bootstrapped_header : list label :=
    [[lit "Computation"; lit "Time"]; [lit "Bootstrap"; lit "Draws"]] ++
    (if shows_fixed_point then [[lit "Fixed Point"; lit "Iterations"]; [lit "Contraction"; lit "Evaluations"]] else []).
  Definition bootstrapped_cells : list text :=
    [format_seconds seconds; number_of draws] ++
    (if shows_fixed_point then [number_of (sum_all iterations); number_of (sum_all evaluations)] else []).
End Bootstrapped.
