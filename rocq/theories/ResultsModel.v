(** Estimation results: GMM steps and their cumulative statistics, specification tests, and sampling of
    error terms for optimal instruments. *)
From Coq Require Import Reals List Bool Arith ZArith.
From Verif Require Import Base.
Import ListNotations.
Local Open Scope R_scope.

(* ---------- GMM steps ---------- *)

(** Statistics of a solver.  pyblp/utilities/basics.py 468-479. *)
Record solver_stats := { ss_converged : bool; ss_iterations : nat; ss_evaluations : nat }.
Definition default_stats := {| ss_converged := true; ss_iterations := 0; ss_evaluations := 0 |}.

(** What a step takes and does: its times, the optimiser's statistics, and the fixed point statistics of each
    of its objective evaluations (an empty dictionary is None).  Times are readings of the clock. *)
Record step_run := {
  run_total_time : R;
  run_optimization_time : R;
  run_optimization : solver_stats;
  run_iteration_stats : list (option (Z -> solver_stats))
}.

(** The attributes of ProblemResults that describe its computation.
    pyblp/results/problem_results.py 458-497; attributes holding estimates are not included here. *)
Inductive results := Results {
  step : nat;
  total_time : R; cumulative_total_time : R;
  optimization_time : R; cumulative_optimization_time : R;
  converged : bool; cumulative_converged : bool;
  optimization_iterations : nat; cumulative_optimization_iterations : nat;
  objective_evaluations : nat; cumulative_objective_evaluations : nat;
  fp_converged : list (list bool); cumulative_fp_converged : list (list bool);
  fp_iterations : list (list nat); cumulative_fp_iterations : list (list nat);
  contraction_evaluations : list (list nat); cumulative_contraction_evaluations : list (list nat);
  last_results : option results
}.

(** [np.array([[field(m[t]) if m else default for m in iteration_stats] for t in unique_market_ids])].
    problem_results.py 464-475. *)
Definition table {A} (field : solver_stats -> A) (default : A) (markets : list Z)
    (iteration_stats : list (option (Z -> solver_stats))) : list (list A) :=
  map (fun t => map (fun m => match m with Some d => field (d t) | None => default end) iteration_stats) markets.

(** [np.c_[a, b]] of matrices with as many rows. *)
Fixpoint beside {A} (a b : list (list A)) : list (list A) :=
  match a, b with
  | x :: a', y :: b' => (x ++ y) :: beside a' b'
  | _, _ => []
  end.

(** The part of [ProblemResults.__init__] that records counts, times and convergence.
    problem_results.py 458-497. *)
Definition make_results (markets : list Z) (last : option results) (number : nat) (r : step_run) : results :=
  let s := run_optimization r in
  let fc := table ss_converged true markets (run_iteration_stats r) in
  let fi := table ss_iterations 0%nat markets (run_iteration_stats r) in
  let ce := table ss_evaluations 0%nat markets (run_iteration_stats r) in
  match last with
  | None => Results number
      (run_total_time r) (run_total_time r)
      (run_optimization_time r) (run_optimization_time r)
      (ss_converged s) (ss_converged s)
      (ss_iterations s) (ss_iterations s)
      (ss_evaluations s) (ss_evaluations s)
      fc fc fi fi ce ce None
  | Some l => Results number
      (run_total_time r) (run_total_time r + cumulative_total_time l)
      (run_optimization_time r) (run_optimization_time r + cumulative_optimization_time l)
      (ss_converged s) (converged l && ss_converged s)
      (ss_iterations s) (ss_iterations s + cumulative_optimization_iterations l)
      (ss_evaluations s) (ss_evaluations s + cumulative_objective_evaluations l)
      fc (beside (cumulative_fp_converged l) fc)
      fi (beside (cumulative_fp_iterations l) fi)
      ce (beside (cumulative_contraction_evaluations l) ce)
      (Some l)
  end.

(** What happens outside the bookkeeping in a step: the clock, and if there is anything to optimise, the
    optimiser's statistics together with the fixed point statistics of its objective evaluations; finally
    those of the evaluation that computes results. *)
Record step_world := {
  clock_total : R;
  clock_optimization : R;
  optimized : solver_stats;
  optimized_fp : list (option (Z -> solver_stats));
  final_fp : option (Z -> solver_stats)
}.

(** One pass through the loop over GMM steps.  pyblp/economies/problem.py 899-947: the optimiser only runs if
    there are parameters and this is not the initial update, otherwise its statistics are the defaults;
    computing results counts as one more objective evaluation. *)
Definition perform_step (parameters : nat) (number : nat) (w : step_world) : step_run :=
  let optimize := andb (Nat.ltb 0 parameters) (Nat.ltb 0 number) in
  let s := if optimize then optimized w else default_stats in
  {| run_total_time := clock_total w;
     run_optimization_time := if optimize then clock_optimization w else 0;
     run_optimization := {| ss_converged := ss_converged s; ss_iterations := ss_iterations s;
                            ss_evaluations := S (ss_evaluations s) |};
     run_iteration_stats := (if optimize then optimized_fp w else []) ++ [final_fp w] |}.

(** The loop itself.  problem.py 805-986.  [one_step] is whether method is '1s'.  None: fuel is exhausted
    (which does not happen with enough of it).  Steps that raise are not included. *)
Fixpoint gmm_steps (fuel : nat) (markets : list Z) (parameters : nat) (one_step : bool) (world : nat -> step_world)
    (number : nat) (last : option results) : option results :=
  match fuel with
  | O => None
  | S fuel' =>
      let r := make_results markets last number (perform_step parameters number (world number)) in
      let last_step := orb (Nat.eqb number 2) (andb one_step (Nat.eqb number 1)) in
      if last_step then Some r
      else gmm_steps fuel' markets parameters one_step world (S number) (Some r)
  end.

Definition solve (markets : list Z) (parameters : nat) (one_step initial_update : bool) (world : nat -> step_world)
    : option results :=
  gmm_steps 3 markets parameters one_step world (if initial_update then 0%nat else 1%nat) None.

(* ---------- Specification tests ---------- *)

(** The GMM objective from averaged moments g and a weighting matrix W with M moments, scaled by the number
    of observations or not.  pyblp/economies/problem.py 1525-1528. *)
Definition gmm_objective (scaled : bool) (N M : nat) (g : nat -> R) (W : nat -> nat -> R) : R :=
  let q := sumn M (fun i => g i * sumn M (fun j => W i j * g j)) in
  if scaled then q * INR N else q.

(** problem_results.py 978. *)
Definition hansen_test (scaled : bool) (N : nat) (objective : R) : R :=
  (if scaled then 1 else INR N) * objective.

(** problem_results.py 1014-1020.  None: ValueError because the numbers of observations differ. *)
Definition distance_test (scaled : bool) (N : nat) (objective : R) (scaled' : bool) (N' : nat) (objective' : R) : option R :=
  if Nat.eqb N' N
  then Some ((if scaled then 1 else INR N) * objective - (if scaled' then 1 else INR N') * objective')
  else None.

(** problem_results.py 1050-1051. *)
Definition lm_test (N M P : nat) (g : nat -> R) (W G V : nat -> nat -> R) : R :=
  let gradient := fun p => sumn M (fun i => G i p * sumn M (fun j => W i j * g j)) in
  INR N * sumn P (fun p => gradient p * sumn P (fun q => V p q * gradient q)).

(* ---------- Error terms for optimal instruments ---------- *)

Definition mean (N : nat) (x : nat -> R) : R := sumn N x / INR N.
(** [np.var]. *)
Definition variance (N : nat) (x : nat -> R) : R := mean N (fun i => (x i - mean N x) * (x i - mean N x)).
(** Elements of [np.cov(x, y, rowvar=False)]. *)
Definition covariance (N : nat) (x y : nat -> R) : R :=
  sumn N (fun i => (x i - mean N x) * (y i - mean N y)) / (INR N - 1).

(** [state.normal(loc, scale, N)] transforms standard normal draws z. *)
Definition normal (loc scale : R) (z : nat -> R) : nat -> R := fun i => loc + scale * z i.

(** method='normal' without a supply side.  problem_results.py 1448-1450. *)
Definition normal_xi (N : nat) (xi : nat -> R) (z : nat -> R) : nat -> R := normal 0 (variance N xi) z.

(** [state.multivariate_normal([0, 0], covariance, N)] transforms pairs of independent standard normal draws
    with a square root A of the covariance matrix, A'A = covariance (here the rows of the result are
    (z1, z2) A); used with a supply side.  problem_results.py 1451-1453. *)
Definition multivariate_normal (A : nat -> nat -> R) (z1 z2 : nat -> R) : nat -> nat -> R :=
  fun i k => z1 i * A 0%nat k + z2 i * A 1%nat k.

(** method='empirical': rows are chosen with replacement.  problem_results.py 1454-1459. *)
Definition empirical (xi omega : nat -> R) (chosen : nat -> nat) : nat -> nat -> R :=
  fun i k => if Nat.eqb k 0 then xi (chosen i) else omega (chosen i).

(** Optimal instruments from expected Jacobians (N by P).  problem_results.py 1516-1528.  With a supply side,
    [np.stack] makes an N by 2 by P array which each row's 2 by 2 inverse multiplies, [reshape] puts demand
    columns first, and [np.split] separates the two halves. *)
Definition reshaped (P : nat) (a : nat -> nat -> nat -> R) : nat -> nat -> R :=
  fun i c => a i (c / P)%nat (c mod P)%nat.
Definition optimal_instruments (P : nat) (inverse : nat -> nat -> R) (expected_xi expected_omega : nat -> nat -> R)
    : (nat -> nat -> R) * (nat -> nat -> R) :=
  let stacked := fun i e p => if Nat.eqb e 0 then expected_xi i p else expected_omega i p in
  let instruments := fun i e p => sumn 2 (fun f => inverse e f * stacked i f p) in
  let flat := reshaped P instruments in
  (fun i p => flat i p, fun i p => flat i (P + p)%nat).
Definition optimal_demand_instruments (N : nat) (xi : nat -> R) (expected_xi : nat -> nat -> R) : nat -> nat -> R :=
  fun i p => 1 / variance N xi * expected_xi i p.

(** The average over draws of Jacobian realizations, accumulated one draw at a time.
    problem_results.py 1492-1510. *)
Fixpoint accumulate (draws : nat) (realized : nat -> R) (k : nat) : R :=
  match k with
  | O => 0
  | S k' => accumulate draws realized k' + realized k' / INR draws
  end.
