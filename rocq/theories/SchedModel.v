(** Model of market-by-market computation: how results that arrive in some order are put together.
    Markets are integers in the order NumPy sorts their IDs.  Definitions only. *)
From Coq Require Import Reals ZArith List Bool Arith.
From Verif Require Import Base BasicsModel.
Import ListNotations.
Local Open Scope nat_scope.

(** [generate_items].  basics.py 172-187.  Without a pool, [order] is the list of keys; with a pool it
    is the order in which [imap_unordered] yields, some permutation of the keys.  The per-market method
    is a function of the key: workers share no state. *)
Definition generate_items {K A} (order : list K) (f : K -> A) : list (K * A) := map (fun k => (k, f k)) order.

(** [a[indices] = values] for one column. *)
Fixpoint index_of (i : nat) (indices : list nat) : option nat :=
  match indices with
  | [] => None
  | j :: indices' => if Nat.eqb i j then Some 0
                     else match index_of i indices' with Some q => Some (S q) | None => None end
  end.
Definition scatter {A} (a : nat -> A) (indices : list nat) (values : list A) : nat -> A :=
  fun i => match index_of i indices with
           | Some q => nth q values (a i)
           | None => a i
           end.

(** A Python dictionary keyed by market. *)
Definition dict (A : Type) := Z -> option A.
Definition dict_set {A} (d : dict A) (t : Z) (v : A) : dict A := fun s => if Z.eqb s t then Some v else d s.

(** [MultipleErrors]: distinct errors in order of first appearance; a single error is itself.
    exceptions.py 16-33.  Errors are identified with their names and messages. *)
Fixpoint distinct {E} (eqb : E -> E -> bool) (l : list E) : list E :=
  match l with
  | [] => []
  | e :: l' => e :: filter (fun x => negb (eqb e x)) (distinct eqb l')
  end.

(* ---------- Objective evaluation ---------- *)

Section Assembly.
  (** X: one product's delta (and the other product-level outputs); S: statistics of a market's fixed
      point; M: micro contributions of a market; E: errors. *)
  Context {X S M E : Type}.
  Record market_output := { out_rows : list X; out_stats : S; out_micro : M; out_errors : list E }.
  Record assembled := {
    rows : nat -> X; stats : dict S; micro : dict M; errors : list E
  }.
  Variable market_rows : Z -> list nat.     (* _product_market_indices *)

  (** One pass of the loop over generated items in [_compute_progress].  problem.py 1117-1161.  All
      product-level outputs are assigned to the same rows, so one stands for all of them; the
      dictionaries of numerators, denominators, their Jacobians and covariances are all of one kind. *)
  Definition assemble_one (a : assembled) (item : Z * market_output) : assembled :=
    let '(t, o) := item in
    {| rows := scatter (rows a) (market_rows t) (out_rows o);
       stats := dict_set (stats a) t (out_stats o);
       micro := dict_set (micro a) t (out_micro o);
       errors := errors a ++ out_errors o |}.
  Definition assemble (initial : assembled) (items : list (Z * market_output)) : assembled :=
    fold_left assemble_one items initial.

  (** Aggregation of micro contributions after the loop, in the order of [unique_market_ids].
      problem.py 1163-1175.  [add] is floating point addition, about which nothing is assumed.  A missing
      key would raise; [missing] stands for that. *)
  Definition aggregate (add : M -> M -> M) (zero missing : M) (a : assembled) (unique_market_ids : list Z) : M :=
    fold_left (fun acc t => add acc (match micro a t with Some m => m | None => missing end)) unique_market_ids zero.
End Assembly.

(** [_product_market_indices[t]], from [get_indices(products.market_ids)]; [p] is the stable argsort. *)
Definition market_indices (ids : list Z) (p : list nat) (t : Z) : list nat :=
  match find (fun entry => Z.eqb (fst entry) t) (get_indices ids p) with
  | Some entry => snd entry
  | None => []
  end.

(* ---------- _combine_arrays ---------- *)

Section Combine.
  Context {V : Type}.
  (** A matrix is the list of its rows. *)
  Definition rows_matrix := list (list V).
  (** A partly filled matrix; None is NaN. *)
  Definition cells := nat -> nat -> option V.

  Definition matrix_cell (a : rows_matrix) (i j : nat) : option V :=
    match nth_error a i with
    | Some row => nth_error row j
    | None => None
    end.

  (** [combined[(indices, slice(0, width))] = array]. *)
  Definition put_rows (c : cells) (indices : list nat) (a : rows_matrix) : cells :=
    fun i j => match index_of i indices with
               | Some q => match matrix_cell a q j with Some v => Some v | None => c i j end
               | None => c i j
               end.

  (** Positions selected by [market_ids == t]. *)
  Definition mask_positions (market_ids : list Z) (t : Z) : list nat :=
    filter (fun i => Z.eqb (nth i market_ids 0%Z) t) (seq 0 (List.length market_ids)).

  (** [EconomyResults._combine_arrays].  economy_results.py 1187-1276.  [N] is the number of products,
      [market_rows] is [_product_market_indices], [order] the order of arrival, [f] the per-market
      method.  Two-dimensional arrays only.  NumPy would raise if the number of selected rows were not
      the number of rows of the array; the model does not.  Messages are left out. *)
  Definition total_rows (market_ids : list Z) (f : Z -> rows_matrix) : nat :=
    fold_right (fun t n => List.length (f t) + n) 0 market_ids.
  Definition combine_one (N : nat) (market_rows : Z -> list nat) (market_ids : list Z) (f : Z -> rows_matrix)
      (c : cells) (t : Z) : cells :=
    if Nat.eqb (total_rows market_ids f) (List.length market_ids)
    then put_rows c (mask_positions market_ids t) (f t)
    else if Nat.eqb (total_rows market_ids f) N
    then put_rows c (market_rows t) (f t)
    else matrix_cell (f t).
  Definition combine_arrays (N : nat) (market_rows : Z -> list nat) (market_ids order : list Z)
      (f : Z -> rows_matrix) : cells :=
    fold_left (combine_one N market_rows market_ids f) order (fun _ _ => None).
End Combine.

(* ---------- Importance sampling ---------- *)

Local Open Scope R_scope.
Section Importance.
  (** The random number generator: its state, [uniform(size)] and [choice(indices, size, replace=False)],
      which raises (None) when there are too few indices. *)
  Context {G : Type}.
  Variable uniform : G -> nat -> (nat -> R) * G.
  Variable choice : G -> list nat -> nat -> option (list nat) * G.

  (** Weights of one market: [count] agents, their probabilities of buying anything, the inside share.
      problem_results.py 1812-1827.  None: RuntimeError. *)
  Definition market_weights (g : G) (draws : nat) (ar_constant : R) (count : nat) (inside_share : R)
      (inside_probabilities : nat -> R) : option (nat -> R) * G :=
    let '(cutoffs, g1) := uniform g count in
    let accepted := filter (fun i => if Rlt_dec (cutoffs i) (inside_probabilities i / ar_constant) then true else false)
                      (seq 0 count) in
    match choice g1 accepted draws with
    | (None, g2) => (None, g2)
    | (Some sampled, g2) =>
        (Some (fun i => if existsb (Nat.eqb i) sampled
                        then inside_share / inside_probabilities i / INR draws else 0), g2)
    end.

  (** [_compute_importance_weights].  problem_results.py 1768-1829.  [order] is the order of arrival; the
      generator's state is threaded through the markets in that order.  Weights of a market are kept per
      market, not scattered into the rows of agents. *)
  Fixpoint importance_weights (g : G) (draws : nat) (ar_constant : R) (count : Z -> nat) (inside_share : Z -> R)
      (inside_probabilities : Z -> nat -> R) (order : list Z) : option (dict (nat -> R)) :=
    match order with
    | [] => Some (fun _ => None)
    | t :: order' =>
        match market_weights g draws ar_constant (count t) (inside_share t) (inside_probabilities t) with
        | (None, _) => None
        | (Some w, g') =>
            match importance_weights g' draws ar_constant count inside_share inside_probabilities order' with
            | None => None
            | Some d => Some (fun s => match d s with Some w' => Some w'
                                       | None => if Z.eqb s t then Some w else None end)
            end
        end
    end.
End Importance.

(** Diagnostics of a market's kept weights.  importance_sampling_results.py 80-91. *)
Definition power_sum (k : nat) (w : list R) : R := fold_right (fun x acc => x ^ k + acc) 0 w.
Definition weight_sum (w : list R) : R := power_sum 1 w.
Definition effective_draws (w : list R) : R := weight_sum w ^ 2 / power_sum 2 w.
Definition effective_draws_for_variance (w : list R) : R := power_sum 2 w ^ 2 / power_sum 4 w.
Definition effective_draws_for_skewness (w : list R) : R := power_sum 2 w ^ 3 / power_sum 3 w ^ 2.
