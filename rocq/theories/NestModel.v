(** Model of tangents when products are unavailable or eliminated, and of second choices with nesting.
    Definitions only.

    Source: /repo/pyblp/markets/market.py. *)
From Coq Require Import Reals List Bool Arith.
From Verif Require Import Base DemandModel SupplyModel DerivModel MicroModel.
Local Open Scope R_scope.

(** [compute_probabilities] for one agent and a choice set: probabilities and conditionals.
    market.py 360-456. *)
Definition choice_probabilities (m : market) (c : choice) (delta mu : nat -> R) : nat -> R :=
  fst (probabilities_linear m c true delta mu).
Definition choice_conditionals (m : market) (c : choice) (delta mu : nat -> R) : nat -> R :=
  match snd (probabilities_linear m c true delta mu) with
  | Some x => x
  | None => fun _ => 0
  end.

(** Products whose utility is replaced by minus infinity.  market.py 1111-1117. *)
Definition is_eliminated (c : choice) (j : nat) : bool :=
  match c_eliminate c with Some k => Nat.eqb j k | None => false end
  || match c_eliminate_ids c with Some mask => mask j | None => false end.

(** [compute_probabilities_by_parameter_tangent] for a nesting parameter that governs the groups in [assoc] (1 or
    0), from the probabilities and conditionals of a choice set.  market.py 1092-1148.  The reduction is the largest
    utility that is not minus infinity, or zero; the logarithm of an empty group is minus infinity, and the product
    with its zero marginal probability, not a number, is replaced by zero (1135). *)
Definition choice_rho_tangent (m : market) (c : choice) (P C delta mu assoc : nat -> R) : (nat -> R) * (nat -> R) :=
  let utilities := fun j => (delta j + mu j) / (1 - rho m j) in
  let marginals := gsum m P in
  let A := fun j => C j * utilities j / (1 - rho m j) in
  let A_sums := gsum m A in
  let cond_t := fun j => assoc (gid m j) * (A j - C j * A_sums (gid m j)) in
  let reduction := Rmax (maxn (pred (mJ m)) (fun j => if is_eliminated c j then 0 else utilities j)) 0 in
  let exp_utilities := fun j => (if is_eliminated c j then 0 else exp (utilities j - reduction))
                                * match c_availability c with Some a => a j | None => 1 end in
  let B := fun h => let s := gsum m exp_utilities h in
             if Rlt_dec 0 s then marginals h * (A_sums h * (1 - grho m h) - (ln s + reduction)) else 0 in
  let marg_t := fun h => assoc h * B h - marginals h * sumn (mH m) (fun g => assoc g * B g) in
  (fun j => cond_t j * marginals (gid m j) + C j * marg_t (gid m j), cond_t).

(** Choice sets for second choices: without product j, or, with product IDs, without all products that [same j]
    flags; and without the outside option.  market.py 1652-1682 and 1784-1795.  [av] is the agent's row of
    availability. *)
Definition without_product (av : option (nat -> R)) (ids : option (nat -> nat -> bool)) (j : nat) : choice :=
  match ids with
  | None => mk_choice false av (Some j) None
  | Some same => mk_choice false av None (Some (same j))
  end.
Definition without_outside (av : option (nat -> R)) : choice := mk_choice true av None None.
Definition unrestricted (av : option (nat -> R)) : choice := mk_choice false av None None.

(** Probabilities that multiply weights, from probabilities of inside goods [p], [elim j k] once j is eliminated,
    and [oute] once the outside option is.  market.py 1629-1630, 1831-1834 and 1850-1874. *)
Definition cell_probability (J : nat) (p : nat -> R) (elim : nat -> nat -> R) (oute : nat -> R) (c : cell) : R :=
  match c with
  | Single (Some j) => p j
  | Single None => 1 - sumn J p
  | Pair (Some j) (Some k) => if Nat.eqb j k then 0 else elim j k - p k
  | Pair None (Some k) => - p k + oute k
  | Pair (Some j) None => (1 - sumn J (elim j)) - (1 - sumn J p)
  | Pair None None => 0
  end.
(** The same for tangents.  market.py 1632-1635, 1836-1839 and 1884-1906. *)
Definition cell_tangent (J : nat) (dp : nat -> R) (delim : nat -> nat -> R) (doute : nat -> R) (c : cell) : R :=
  match c with
  | Single (Some j) => dp j
  | Single None => - sumn J dp
  | Pair (Some j) (Some k) => if Nat.eqb j k then 0 else delim j k - dp k
  | Pair None (Some k) => - dp k + doute k
  | Pair (Some j) None => - sumn J (delim j) - - sumn J dp
  | Pair None None => 0
  end.

(** With nesting, probabilities are computed from scratch for every choice set. *)
Definition nested_cell (m : market) (av : option (nat -> R)) (ids : option (nat -> nat -> bool)) (delta mu : nat -> R)
    : cell -> R :=
  cell_probability (mJ m) (choice_probabilities m (unrestricted av) delta mu)
    (fun j => choice_probabilities m (without_product av ids j) delta mu)
    (choice_probabilities m (without_outside av) delta mu).

(** Tangents of all choice sets with respect to one parameter, from [tangent c], the tangent that ignores mean
    utilities, and from the Jacobian of xi.  market.py 1716-1772 and 1813-1829. *)
Definition choice_total_tangent (m : market) (delta mu xi_jacobian : nat -> R) (tangent : choice -> nat -> R)
    (c : choice) : nat -> R :=
  total_tangent m (choice_probabilities m c delta mu) (choice_conditionals m c delta mu) (tangent c) xi_jacobian.
Definition nested_cell_tangent (m : market) (av : option (nat -> R)) (ids : option (nat -> nat -> bool))
    (delta mu xi_jacobian : nat -> R) (tangent : choice -> nat -> R) : cell -> R :=
  let d := choice_total_tangent m delta mu xi_jacobian tangent in
  cell_tangent (mJ m) (d (unrestricted av)) (fun j => d (without_product av ids j)) (d (without_outside av)).

(** Tangents that ignore mean utilities: of a parameter that moves utilities by [vx], and of a nesting parameter. *)
Definition choice_utility_tangent (m : market) (delta mu vx : nat -> R) (c : choice) : nat -> R :=
  fst (utility_tangent m (choice_probabilities m c delta mu) (choice_conditionals m c delta mu) vx).
Definition choice_nesting_tangent (m : market) (delta mu assoc : nat -> R) (c : choice) : nat -> R :=
  fst (choice_rho_tangent m c (choice_probabilities m c delta mu) (choice_conditionals m c delta mu) delta mu assoc).

(** One dataset in one market: agents with integration weights, availability, survey weights and values of one
    part.  All agents are in one chunk (chunks are the subject of MicroModel.v). *)
Record survey := mk_survey {
  s_shape : shape;
  s_J : nat;
  s_I : nat;
  s_agent_weight : nat -> R;
  s_weight : nat -> cell -> R;
  s_value : nat -> cell -> R
}.
Section Survey.
Variable s : survey.
(** Truncated weights, their tangents, and contributions to numerators and denominators.  market.py 1842-1922 and
    2029-2045. *)
Definition survey_weight (q : nat -> cell -> R) (i : nat) (c : cell) : R :=
  truncate (s_weight s i c * s_agent_weight s i * q i c).
Definition survey_sum (f : nat -> cell -> R) : R := sumn (s_I s) (fun i => sum_over (cells (s_shape s) (s_J s)) (f i)).
Definition survey_numerator (q : nat -> cell -> R) : R := survey_sum (fun i c => survey_weight q i c * s_value s i c).
Definition survey_denominator (q : nat -> cell -> R) : R := survey_sum (survey_weight q).
Definition survey_numerator_jacobian (dq : nat -> cell -> R) : R :=
  survey_sum (fun i c => s_weight s i c * s_agent_weight s i * dq i c * s_value s i c).
Definition survey_constant : bool :=
  let the_cells := cells (s_shape s) (s_J s) in
  forallb (fun i => forallb (fun c => reqb (s_weight s i c) (s_weight s 0 c)) the_cells) (seq 0 (s_I s))
  && match s_shape s with
     | Two _ => true
     | Three _ o2 => o2 && forallb (fun i => forallb (fun c => match c with
                             | Pair a b => reqb (s_weight s i c) (s_weight s i (Pair a None))
                             | Single _ => true end) the_cells) (seq 0 (s_I s))
     end.
Definition survey_denominator_jacobian (dq : nat -> cell -> R) : R :=
  if survey_constant then 0 else survey_sum (fun i c => s_weight s i c * s_agent_weight s i * dq i c).
End Survey.

(** A micro moment part and its Jacobian: sums over markets.  problem.py 1163-1180 and 1212-1229. *)
Definition surveys_part (l : list (survey * (nat -> cell -> R))) : R :=
  sum_over l (fun d => survey_numerator (fst d) (snd d)) / sum_over l (fun d => survey_denominator (fst d) (snd d)).
Definition surveys_part_jacobian (l : list (survey * (nat -> cell -> R) * (nat -> cell -> R))) : R :=
  (sum_over l (fun d => survey_numerator_jacobian (fst (fst d)) (snd d))
   - surveys_part (map fst l) * sum_over l (fun d => survey_denominator_jacobian (fst (fst d)) (snd d)))
  / sum_over l (fun d => survey_denominator (fst (fst d)) (snd (fst d))).
