(** Progress of optimization as it is displayed after each evaluation of the objective.  pyblp/economies/problem.py 2368-2452
    ([Progress.format]) and 849-904 ([wrapper]), pyblp/exceptions.py 16-33 ([MultipleErrors]), pyblp/utilities/basics.py 535-553.
    Definitions only. *)
From Coq Require Import Ascii String Reals ZArith List Arith Bool.
From Verif Require Import FltModel TableModel FormatModel ProgressModel.
Import ListNotations.

(* ---------- Errors ---------- *)

(** An error is told apart from others by the name of its class and its message.  basics.py 547-553.  (Simplified: hashes of
    different pairs differ, and there are no tracebacks, which are part of messages with options.verbose_tracebacks.) *)
Notation failure := (text * text)%type.
Definition same_failure (a b : failure) : bool :=
  if list_eq_dec ascii_dec (fst a) (fst b) then if list_eq_dec ascii_dec (snd a) (snd b) then true else false else false.
(** [list(OrderedDict.fromkeys(errors))].  exceptions.py 29. *)
Fixpoint distinct_failures (seen l : list failure) : list failure :=
  match l with
  | [] => []
  | e :: l' => if existsb (same_failure e) seen then distinct_failures seen l' else e :: distinct_failures (e :: seen) l'
  end.
(** [str(MultipleErrors(errors))]: a single error is displayed as itself.  exceptions.py 21-33. *)
Definition failures_text (l : list failure) : text :=
  match l with
  | [e] => snd e
  | _ => join_lines (map snd (distinct_failures [] l))
  end.
Definition preamble : text := lit
  "At least one error was encountered. As long as the optimization routine does not get stuck at values of theta that give rise to errors, this is not necessarily a problem. If the errors persist or seem to be impacting the optimization results, consider setting an error punishment or following any of the other suggestions below:".

(* ---------- Rows ---------- *)

(** What does not change during a step: options.digits, whether pyblp's display is used, whether there is a finite bound on shares and
    on costs ([np.isfinite(bounds).any()]), whether there is a gradient, and whether there are bounds on parameters. *)
Record settings := mk_settings {
  digits : nat; universal : bool; shares_bounded : bool; costs_bounded : bool; with_gradient : bool; any_bounds : bool; step : nat }.
(** What is displayed about an evaluation.  Solver statistics of markets are pairs of iterations and evaluations. *)
Record evaluation := mk_evaluation {
  failures : list failure; elapsed : R; iterations : nat; evaluation_count : nat; solver_stats : list (nat * nat);
  clipped_shares : list bool; clipped_costs : list bool; objective_value : flt; gradient_norm : flt; theta : list flt }.

Definition count_true (l : list bool) : nat := count_occ bool_dec l true.
Definition number_of (n : nat) : text := integer (Z.of_nat n).
Definition total (l : list nat) : nat := fold_right Nat.add 0 l.

(** Labels.  problem.py 2402-2409, 2418-2428, 2435-2441. *)
Definition progress_header (s : settings) : list label :=
  [[lit "GMM"; lit "Step"]; [lit "Computation"; lit "Time"]; [lit "Optimization"; lit "Iterations"]; [lit "Objective"; lit "Evaluations"];
   [lit "Fixed Point"; lit "Iterations"]; [lit "Contraction"; lit "Evaluations"]] ++
  (if shares_bounded s then [[lit "Clipped"; lit "Shares"]] else []) ++
  (if costs_bounded s then [[lit "Clipped"; lit "Costs"]] else []) ++
  [[lit "Objective"; lit "Value"]; [lit "Objective"; lit "Improvement"]] ++
  (if with_gradient s then [if any_bounds s then [lit "Projected"; lit "Gradient Norm"] else [lit "Gradient"; lit "Norm"]] else []) ++
  [[[]; lit "Theta"]].

(** [smallest_objective - self.objective] is displayed if it is finite and positive; otherwise there are as many spaces.
    problem.py 2429-2433. *)
Definition improvement (smallest objective : flt) : option R :=
  match fsub smallest objective with Num d => if Rlt_dec 0 d then Some d else None | _ => None end.
Definition improvement_cell (digits : nat) (smallest objective : flt) : text :=
  match improvement smallest objective with
  | Some d => format_number digits (Num d)
  | None => repeat blank (length (format_number digits (fsub smallest objective)))
  end.
(** [", ".join(...)] *)
Fixpoint join_commas (l : list text) : text :=
  match l with
  | [] => []
  | [a] => a
  | a :: l' => a ++ lit ", " ++ join_commas l'
  end.

(** Cells.  problem.py 2410-2441. *)
Definition progress_cells (s : settings) (e : evaluation) (smallest : flt) : list text :=
  [number_of (step s); format_seconds (elapsed e); number_of (iterations e); number_of (evaluation_count e);
   number_of (total (map fst (solver_stats e))); number_of (total (map snd (solver_stats e)))] ++
  (if shares_bounded s then [number_of (count_true (clipped_shares e))] else []) ++
  (if costs_bounded s then [number_of (count_true (clipped_costs e))] else []) ++
  [format_number (digits s) (objective_value e); improvement_cell (digits s) smallest (objective_value e)] ++
  (if with_gradient s then [format_number (digits s) (gradient_norm e)] else []) ++
  [join_commas (map (format_number (digits s)) (theta e))].

(** [Progress.format].  problem.py 2385-2452.  (The count of evaluations is at least one.) *)
Definition error_lines (l : list failure) : list text :=
  match l with [] => [] | _ => [[]; preamble; failures_text l; []] end.
Definition include_header (e : evaluation) : bool := (evaluation_count e - 1) mod 50 =? 0.
Definition format_progress (s : settings) (e : evaluation) (smallest : flt) : option text :=
  if universal s then
    option_map (fun table => join_lines (error_lines (failures e) ++ (if include_header e && (1 <? evaluation_count e) then [[]] else []) ++ [table]))
      (format_table (progress_header s) [progress_cells s e smallest] None false (include_header e) [])
  else Some (join_lines (error_lines (failures e))).

(* ---------- The smallest objective so far ---------- *)

Section Steps.
  Context {Theta : Type}.
  Variable c : computation Theta.
  Variable cfg : configuration.

  (** [smallest_objective] is np.inf or the array of some evaluation's objective, which later evaluations can change. *)
  Definition smallest_value (h : heap) (smallest : option nat) : flt := match smallest with Some n => cell h n | None => PInf end.
  (** [min(smallest_objective, progress.objective)], which is the first unless the second is less.  problem.py 897. *)
  Definition next_smallest (h : heap) (smallest : option nat) (objective : nat) : option nat :=
    if fltb (cell h objective) (smallest_value h smallest) then Some objective else smallest.
  (** Objectives of the evaluations of a step with what the smallest one is taken to be when they are displayed.  problem.py 869-904. *)
  Fixpoint displayed (h : heap) (p : progress) (smallest : option nat) (l : list (Theta * bool)) : list (flt * flt) :=
    match l with
    | [] => []
    | (theta, compute_gradient) :: l' =>
        match evaluate c cfg h p theta compute_gradient with
        | (_, None) => []
        | (h', Some p') =>
            (cell h' (objective p'), smallest_value h' smallest) :: displayed h' p' (next_smallest h' smallest (objective p')) l'
        end
    end.
  (** Improvements of a step, whose smallest objective is infinite at first.  problem.py 849. *)
  Definition improvements (h : heap) (p : progress) (l : list (Theta * bool)) : list (option R) :=
    map (fun x => improvement (snd x) (fst x)) (displayed h p None l).
End Steps.
