(** Model of micro moments: probabilities of first and second choices, survey weights, chunks of agents,
    micro moment parts, their Jacobians and covariances, and scores.  Without nesting.  Definitions only. *)
From Coq Require Import Reals List Bool Arith ZArith.
From Verif Require Import Base BasicsModel PrimModel.
Import ListNotations.
Local Open Scope R_scope.

(** [None] is the outside option. *)
Definition option_id := option nat.
Inductive cell := Single (a : option_id) | Pair (a b : option_id).

(** Shapes of weights: whether the outside option is in the second and in the third axis.
    market.py 1527-1530. *)
Inductive shape := Two (outside : bool) | Three (first_outside second_outside : bool).
Definition options_of (outside : bool) (J : nat) : list option_id :=
  (if outside then [None] else []) ++ map Some (seq 0 J).
Definition cells (s : shape) (J : nat) : list cell :=
  match s with
  | Two o => map Single (options_of o J)
  | Three o1 o2 => flat_map (fun a => map (Pair a) (options_of o2 J)) (options_of o1 J)
  end.

Fixpoint sum_over {A} (l : list A) (f : A -> R) : R :=
  match l with
  | [] => 0
  | x :: l => f x + sum_over l f
  end.

(** One agent.  [p] are probabilities of inside goods, and [same j k] whether eliminating product j also
    eliminates product k: [Nat.eqb] without, and equality of product IDs with [eliminated_product_ids_index].
    Exact arithmetic, so that the analytic trick is used whenever an outside option exists. *)
Section Agent.
Variables (J : nat) (same : nat -> nat -> bool) (p : nat -> R).
Definition outside : R := 1 - sumn J p.                                                          (* 1630 *)
Definition removed (j : nat) : R := sumn J (fun l => if same j l then p l else 0).
Definition eliminated (j k : nat) : R := if same j k then 0 else p k / (1 - removed j).           (* 1647-1650, 1671-1678 *)
Definition outside_eliminated (k : nat) : R := p k / sumn J p.                                   (* 1786 *)
Definition eliminated_outside (j : nat) : R := 1 - sumn J (eliminated j).                        (* 1834 *)

(** Probabilities that multiply weights.  market.py 1850-1874. *)
Definition probability (c : cell) : R :=
  match c with
  | Single (Some j) => p j
  | Single None => outside
  | Pair (Some j) (Some k) => if Nat.eqb j k then 0 else eliminated j k - p k
  | Pair None (Some k) => - p k + outside_eliminated k
  | Pair (Some j) None => eliminated_outside j - outside
  | Pair None None => 0
  end.

(** Tangents with respect to one parameter: [dp] are those of probabilities.  [0 / 0] is replaced by zero.
    market.py 1632-1635, 1697-1714, 1800-1812, 1836-1839 and 1884-1906. *)
Variable dp : nat -> R.
Definition ratio (x y : R) : R := if Req_EM_T y 0 then 0 else x / y.
Definition removed_tangent (j : nat) : R := sumn J (fun l => if same j l then dp l else 0).
Definition eliminated_tangent (j k : nat) : R :=
  ratio (eliminated j k) (p k) * (dp k + eliminated j k * removed_tangent j).
Definition outside_eliminated_tangent (k : nat) : R :=
  ratio (outside_eliminated k) (p k) * (dp k - outside_eliminated k * sumn J dp).
Definition tangent (c : cell) : R :=
  match c with
  | Single (Some j) => dp j
  | Single None => - sumn J dp
  | Pair (Some j) (Some k) => if Nat.eqb j k then 0 else eliminated_tangent j k - dp k
  | Pair None (Some k) => - dp k + outside_eliminated_tangent k
  | Pair (Some j) None => - sumn J (eliminated_tangent j) - - sumn J dp
  | Pair None None => 0
  end.
End Agent.

(** [np.array_split(np.arange(I), chunks)]: the first [I mod chunks] have one more element. *)
Fixpoint split_from (sizes : list nat) (start : nat) : list (list nat) :=
  match sizes with
  | [] => []
  | n :: sizes => seq start n :: split_from sizes (start + n)
  end.
Definition array_split (I chunks : nat) : list (list nat) :=
  split_from (repeat (I / chunks + 1)%nat (I mod chunks) ++ repeat (I / chunks)%nat (chunks - I mod chunks)) 0.
(** [generate_micro_chunks]: [None] stands for all agents.  market.py 1926-1957. *)
Definition micro_chunks (I chunks : nat) : list (list nat) :=
  if Nat.ltb 1 chunks then filter (fun c => negb (Nat.eqb (List.length c) 0)) (array_split I chunks) else [seq 0 I].

(** A market: numbers of products and agents, integration weights, probabilities, and survey weights, which
    are computed by the user for all agents of a chunk at once, but agent by agent. *)
Record micro_market := mk_micro_market {
  m_J : nat;
  m_I : nat;
  m_same : nat -> nat -> bool;
  m_agent_weight : nat -> R;
  m_p : nat -> nat -> R;             (* agent, product *)
  m_dp : nat -> nat -> R;
  m_weight : nat -> cell -> R;
  m_value : nat -> nat -> cell -> R  (* part, agent *)
}.

Section Market.
Variables (s : shape) (m : micro_market).
Let the_cells := cells s (m_J m).

(** [dataset_weights], truncated from below.  market.py 1842-1878. *)
Definition truncate (x : R) : R := if Rlt_dec x 0 then 0 else x.
Definition dataset_weight (i : nat) (c : cell) : R :=
  truncate (m_weight m i c * m_agent_weight m i * probability (m_J m) (m_same m) (m_p m i) c).
(** [weights_tangent].  market.py 1880-1908. *)
Definition weight_tangent (i : nat) (c : cell) : R :=
  m_weight m i c * m_agent_weight m i * tangent (m_J m) (m_same m) (m_p m i) (m_dp m i) c.

(** Contributions of a chunk of agents.  market.py 1910-1922 and 2033-2045. *)
Definition chunk_sum (f : nat -> cell -> R) (chunk : list nat) : R :=
  sum_over chunk (fun i => sum_over the_cells (f i)).
Definition reqb (x y : R) : bool := if Req_EM_T x y then true else false.
Definition constant_denominator (chunk : list nat) : bool :=
  match chunk with
  | [] => true
  | first :: _ =>
      forallb (fun i => forallb (fun c => reqb (m_weight m i c) (m_weight m first c)) the_cells) chunk
      && match s with
         | Two _ => true
         | Three o1 o2 => o2 && forallb (fun i => forallb (fun c => match c with
                                 | Pair a b => reqb (m_weight m i c) (m_weight m i (Pair a None))
                                 | Single _ => true end) the_cells) chunk
         end
  end.
Definition denominator_tangent (chunk : list nat) : R :=
  if constant_denominator chunk then 0 else chunk_sum weight_tangent chunk.

(** [compute_micro_contributions]: numerators, denominators, their Jacobians, and numerators of covariances.
    market.py 1959-2068. *)
Variable chunks : nat.
Let the_chunks := micro_chunks (m_I m) chunks.
Definition part_numerator (part : nat) : R :=
  sum_over the_chunks (chunk_sum (fun i c => dataset_weight i c * m_value m part i c)).
Definition part_denominator : R := sum_over the_chunks (chunk_sum dataset_weight).
Definition part_numerator_jacobian (part : nat) : R :=
  sum_over the_chunks (chunk_sum (fun i c => weight_tangent i c * m_value m part i c)).
Definition part_denominator_jacobian : R := sum_over the_chunks denominator_tangent.
Definition part_covariance_numerator (part part2 : nat) : R :=
  sum_over the_chunks (chunk_sum (fun i c => dataset_weight i c * m_value m part i c * m_value m part2 i c)).
(** Weights that are kept for all agents: [np.row_stack].  market.py 2014-2020. *)
Definition kept_weights : list (cell -> R) := flat_map (map dataset_weight) the_chunks.
End Market.

(** Aggregation over markets.  problem.py 1163-1256.  Each market has its own shape (one dataset). *)
Section Aggregation.
Variables (chunks : nat) (ms : list (shape * micro_market)).
Definition numerator (part : nat) : R := sum_over ms (fun m => part_numerator (fst m) (snd m) chunks part).
Definition denominator : R := sum_over ms (fun m => part_denominator (fst m) (snd m) chunks).
Definition part_value (part : nat) : R := numerator part / denominator.
Definition numerator_jacobian (part : nat) : R := sum_over ms (fun m => part_numerator_jacobian (fst m) (snd m) chunks part).
Definition denominator_jacobian : R := sum_over ms (fun m => part_denominator_jacobian (fst m) (snd m) chunks).
Definition part_jacobian (part : nat) : R :=
  (numerator_jacobian part - part_value part * denominator_jacobian) / denominator.
(** A micro moment with parts [0, ..., P - 1] of one dataset, and an element of its Jacobian. *)
Definition micro_moment (P : nat) (observed : R) (compute_value : (nat -> R) -> R) : R := observed - compute_value part_value.
Definition micro_jacobian (P : nat) (compute_gradient : (nat -> R) -> nat -> R) : R :=
  - sumn P (fun part => compute_gradient part_value part * part_jacobian part).
(** Covariances of parts based on one dataset with [observations].  problem.py 1238-1256. *)
Definition part_covariance (observations : R) (part part2 : nat) : R :=
  (sum_over ms (fun m => part_covariance_numerator (fst m) (snd m) chunks part part2) / denominator
   - part_value part * part_value part2) / observations.
End Aggregation.

(** * Scores *)

(** Rows of micro data: IDs of observations, markets, and everything else. *)
Record micro_row {X : Type} := mk_micro_row { r_id : Z; r_market : Z; r_data : X }.
Arguments micro_row : clear implicits.
Arguments mk_micro_row {X}.

(** [compute_micro_scores] for one parameter: [numerator rows] is computed from the rows of one observation,
    and [denominator t] from agents of a market.  The second components are Jacobians.  Divisions by zero give
    NaN in the code.  economy_results.py 1478-1535 and 1664-1790; primitives.py 490-530. *)
Section Scores.
Context {X : Type}.
Variables (numerator_of : list (micro_row X) -> R * R) (denominator_of : Z -> R * R).
Definition rows_with (data : list (micro_row X)) (n : Z) : list (micro_row X) := filter (fun r => Z.eqb (r_id r) n) data.
Definition scores (data : list (micro_row X)) : option (list R) :=
  if sorted_check (map (fun r => [r_id r]) data) then
    let markets := np_unique (map r_market data) in
    let d := sum_over markets (fun t => fst (denominator_of t)) in
    let dd := sum_over markets (fun t => snd (denominator_of t)) in
    Some (map (fun n => let q := numerator_of (rows_with data n) in snd q / fst q - dd / d) (np_unique (map r_id data)))
  else None.
End Scores.
