(** Model of the optimisation wrappers: counters, caches, and what the wrapped routine is handed.
    The wrapped routine (SciPy, Knitro) is an arbitrary sequence of actions on its own arrays and on
    the gradient arrays it was handed by reference.  Definitions only. *)
From Coq Require Import Reals List Bool Arith.
From Verif Require Import FltModel.
Import ListNotations.
Local Open Scope nat_scope.

Definition vec := list flt.

(** [np.array_equal]: same length and every pair of elements equal, so never true with NaN. *)
Fixpoint array_equal (v w : vec) : bool :=
  match v, w with
  | [], [] => true
  | x :: v', y :: w' => feqb x y && array_equal v' w'
  | _, _ => false
  end.

Inductive kind := Objective | Gradient.

(** What a wrapped routine may do next.  [Ask k a]: call the objective or gradient wrapper on its own
    array [a].  [Write a v]: overwrite its own array [a] in place.  [Overwrite e v]: overwrite in place
    the gradient array that evaluation number [e] produced and that was handed out by reference.
    [Tick]: complete an iteration and call back. *)
Inductive action :=
| Ask (k : kind) (a : nat)
| Write (a : nat) (v : vec)
| Overwrite (e : nat) (v : vec)
| Tick.

(** An objective function: iterations so far, evaluations so far including this one, and parameters
    give the objective and perhaps a gradient.  optimization.py 282-297: [objective_wrapper] increments
    [evaluations] before calling [verbose_objective_function]; casts between equal data types and
    reshapes are not modelled, and the wrapper's [flatten] makes each evaluation's gradient a new array. *)
Definition objective_function := nat -> nat -> vec -> flt * option vec.

(** [cached]: the copied vector, the objective value, and the number of the evaluation whose gradient
    array the cache refers to.  [gradients e]: present contents of the array of evaluation [e]. *)
Record state := State {
  arrays : nat -> vec;
  gradients : nat -> option vec;
  iterations : nat;
  evaluations : nat;
  cached : option (vec * (flt * nat))
}.

Definition update {A} (f : nat -> A) (i : nat) (x : A) : nat -> A := fun j => if Nat.eqb j i then x else f j.

(** [if cache is None or not np.array_equal(values, cache[0]): cache = (values.copy(),
    objective_function(values)[:2])].  optimization.py 537-538, 544-545, 609-610, 711-712. *)
Definition refresh (f : objective_function) (s : state) (values : vec) : state :=
  let stale := match cached s with
               | None => true
               | Some (v, _) => negb (array_equal values v)
               end in
  if stale then
    let e := S (evaluations s) in
    let '(objective, gradient) := f (iterations s) e values in
    State (arrays s) (update (gradients s) e gradient) (iterations s) e (Some (values, (objective, e)))
  else s.

Inductive answer := Value (x : flt) | Slope (g : option vec).

(** [return cache[1][0]] and [return cache[1][1]].  optimization.py 534-546.  The gradient is handed
    out by reference, so the answer is the present contents of the cached array. *)
Definition reply (s : state) (k : kind) : answer :=
  match cached s with
  | Some (_, (objective, e)) => match k with Objective => Value objective | Gradient => Slope (gradients s e) end
  | None => Value NaN
  end.

(** One action under [scipy_optimizer], optimization.py 522-566.  [Tick] is [iteration_callback], 277-280. *)
Definition step (f : objective_function) (s : state) (a : action) : state * option answer :=
  match a with
  | Ask k r => let s' := refresh f s (arrays s r) in (s', Some (reply s' k))
  | Write r v => (State (update (arrays s) r v) (gradients s) (iterations s) (evaluations s) (cached s), None)
  | Overwrite e v =>
      (State (arrays s) (update (gradients s) e (Some v)) (iterations s) (evaluations s) (cached s), None)
  | Tick => (State (arrays s) (gradients s) (S (iterations s)) (evaluations s) (cached s), None)
  end.

Fixpoint run (f : objective_function) (s : state) (actions : list action) : state * list answer :=
  match actions with
  | [] => (s, [])
  | a :: actions' =>
      let '(s', o) := step f s a in
      let '(s'', answers) := run f s' actions' in
      (s'', match o with Some x => x :: answers | None => answers end)
  end.

(** [iterations = evaluations = 0] and [cache = None].  optimization.py 275, 532. *)
Definition start (memory : nat -> vec) : state := State memory (fun _ => None) 0 0 None.

(** [SolverStats(converged, iterations, evaluations)] after the routine stops.  optimization.py 307. *)
Definition solver_stats (s : state) : nat * nat := (iterations s, evaluations s).

(** ** Knitro *)

(** [min(max(float(np.squeeze(x)), -sys.maxsize), sys.maxsize)]; Python's [max(x, y)] is [y] only
    when [y > x], and [min(x, y)] is [y] only when [y < x].  optimization.py 614, 716. *)
Definition normalize (limit : R) (x : flt) : flt :=
  let lower := if fltb x (Num (- limit)) then Num (- limit) else x in
  if fltb (Num limit) lower then Num limit else lower.

Definition normalize_answer (limit : R) (a : answer) : answer :=
  match a with
  | Value x => Value (normalize limit x)
  | Slope g => Slope (option_map (map (normalize limit)) g)
  end.

(** What Knitro does: it changes its own arrays, reaches iteration number [n], and asks.  Its stores
    are filled element by element, so no array of pyblp is ever handed out. *)
Inductive knitro_action :=
| KAsk (k : kind) (a : nat)
| KWrite (a : nat) (v : vec)
| KReach (n : nat).

(** [local]: the counter [iterations] of the Knitro function; [reached]: [KN_get_number_iters]. *)
Record knitro_state := KState { base : state; local : nat; reached : nat }.

(** [while iterations < current_iterations: iteration_callback(); iterations += 1].
    optimization.py 619-622, 705-708. *)
Definition catch_up (s : knitro_state) : knitro_state :=
  Nat.iter (reached s - local s)
    (fun k => let b := base k in
              KState (State (arrays b) (gradients b) (S (iterations b)) (evaluations b) (cached b))
                     (S (local k)) (reached k)) s.

(** [function_callback] and [gradient_callback] of [knitro_optimizer_kn] (optimization.py 616-632),
    where only the first catches up, and with [both] set [combined_callback] of [knitro_optimizer_ktr]
    (690-727), where every request does. *)
Definition knitro_step (f : objective_function) (limit : R) (both : bool) (s : knitro_state) (a : knitro_action)
    : knitro_state * option answer :=
  match a with
  | KAsk k r =>
      let s1 := match k with
                | Objective => catch_up s
                | Gradient => if both then catch_up s else s
                end in
      let b := refresh f (base s1) (arrays (base s1) r) in
      (KState b (local s1) (reached s1), Some (normalize_answer limit (reply b k)))
  | KWrite r v =>
      let b := base s in
      (KState (State (update (arrays b) r v) (gradients b) (iterations b) (evaluations b) (cached b))
              (local s) (reached s), None)
  | KReach n => (KState (base s) (local s) n, None)
  end.

Fixpoint knitro_run (f : objective_function) (limit : R) (both : bool) (s : knitro_state)
    (actions : list knitro_action) : knitro_state * list answer :=
  match actions with
  | [] => (s, [])
  | a :: actions' =>
      let '(s', o) := knitro_step f limit both s a in
      let '(s'', answers) := knitro_run f limit both s' actions' in
      (s'', match o with Some x => x :: answers | None => answers end)
  end.

Definition knitro_start (memory : nat -> vec) : knitro_state := KState (start memory) 0 0.
