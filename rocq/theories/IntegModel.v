(** Construction of integration nodes and weights.  /repo/pyblp/configurations/integration.py.  Arithmetic is exact, except
    that the number of digits of Halton points is the one at which the loop stops in double precision.  Definitions only. *)
From Coq Require Import Reals ZArith List Bool Arith.
From Verif Require Import Base.
Import ListNotations.
Local Open Scope nat_scope.

(* ---------- Univariate rules ---------- *)

(** Data for nodes on the half line and their weights, one list for each level.  integration.py 352-... [nth_error] at
    level - 1 is None for levels that are not in the tables: ValueError. *)
Record quadrature_tables := { node_data : list (list R); weight_data : list (list R) }.
Definition get_quadrature_data (t : quadrature_tables) (level : nat) : option (list R * list R) :=
  match nth_error (node_data t) (level - 1), nth_error (weight_data t) (level - 1) with
  | Some x, Some w => Some (x, w)
  | _, _ => None
  end.

(** [itertools.product]. *)
Fixpoint cartesian {A} (l : list (list A)) : list (list A) :=
  match l with
  | [] => [[]]
  | x :: l => flat_map (fun a => map (cons a) (cartesian l)) x
  end.
(** [np.kron] of vectors and [functools.reduce(np.kron, l)]; there is at least one dimension. *)
Definition kron (a b : list R) : list R := flat_map (fun x => map (Rmult x) b) a.
Definition reduce_kron (l : list (list R)) : list R :=
  match l with
  | [] => []
  | a :: l => fold_left kron l a
  end.

(** [product_rule].  integration.py 259-268. *)
Definition mirrored_nodes (drop : nat) (x : list R) : list R := map Ropp (rev x) ++ skipn drop x.
Definition mirrored_weights (drop : nat) (w : list R) : list R := rev w ++ skipn drop w.
Definition dropped (level : nat) (nested : bool) : nat := if nested then 1 else level mod 2.
Definition product_rule (t : quadrature_tables) (dimensions level : nat) (nested : bool) : option (list (list R) * list R) :=
  match get_quadrature_data t level with
  | None => None
  | Some (x, w) =>
      let drop := dropped level nested in
      Some (cartesian (repeat (mirrored_nodes drop x) dimensions), reduce_kron (repeat (mirrored_weights drop w) dimensions))
  end.

(* ---------- Sequences with a given sum ---------- *)

Definition set_nth (n : nat) (v : nat) (l : list nat) : list nat := firstn n l ++ v :: skipn (S n) l.
Definition total (l : list nat) : nat := fold_right plus 0 l.
(** [for backward in reversed(range(forward)): forward = backward; if sequence[backward] != 0: break]. *)
Fixpoint go_back (sequence : list nat) (forward : nat) : nat :=
  match forward with
  | 0 => 0
  | S backward => if negb (Nat.eqb (nth backward sequence 0) 0) then backward else go_back sequence backward
  end.
(** The body of the loop.  integration.py 337-347.  Entries are natural numbers: the one that is decremented is positive. *)
Definition next_sequence (size summation : nat) (sequence : list nat) (forward : nat) : list nat * nat :=
  let forward := if Nat.eqb forward (size - 1) then go_back sequence forward else forward in
  let sequence := set_nth forward (nth forward sequence 0 - 1) sequence in
  let forward := S forward in
  let sequence := set_nth forward (summation - total (firstn forward sequence)) sequence in
  let sequence := if forward <? size - 1 then firstn (S forward) sequence ++ repeat 0 (size - S forward) else sequence in
  (sequence, forward).
(** The loop; None if it has not ended after a number of iterations. *)
Fixpoint sequences_loop (fuel size summation : nat) (sequence : list nat) (forward : nat) : option (list (list nat)) :=
  match fuel with
  | 0 => None
  | S fuel =>
      if nth (size - 1) sequence 0 <? summation then
        let (next, forward) := next_sequence size summation sequence forward in
        option_map (cons sequence) (sequences_loop fuel size summation next forward)
      else Some [sequence]
  end.
(** [same_size_sequences].  integration.py 327-349. *)
Definition same_size_sequences (fuel size summation : nat) : option (list (list nat)) :=
  let summation := summation - size in
  option_map (map (map S)) (sequences_loop fuel size summation (summation :: repeat 0 (size - 1)) 0).

(* ---------- Sparse grids ---------- *)

Definition row := (list R * R)%type.
(** [np.lexsort(nodes[:, ::-1].T)]: a stable sort by the first column, then by the second column, and so on. *)
Fixpoint lex_le (x y : list R) : bool :=
  match x, y with
  | [], _ => true
  | _ :: _, [] => false
  | a :: x, b :: y => if Rlt_dec a b then true else if Rlt_dec b a then false else lex_le x y
  end.
Fixpoint lex_insert (r : row) (l : list row) : list row :=
  match l with
  | [] => [r]
  | s :: l => if lex_le (fst r) (fst s) then r :: s :: l else s :: lex_insert r l
  end.
Definition lexsort (l : list row) : list row := fold_right lex_insert [] l.
(** Merge weights of repeated rows.  integration.py 294-307. *)
Fixpoint merge_from (x : list R) (w : R) (l : list row) : list row :=
  match l with
  | [] => [(x, w)]
  | (y, v) :: l => if list_eq_dec Req_EM_T y x then merge_from x (w + v)%R l else (x, w) :: merge_from y v l
  end.
Definition merge (l : list row) : list row :=
  match l with
  | [] => []
  | (x, w) :: l => merge_from x w l
  end.

(** Rows added for one sequence of levels.  integration.py 283-287. *)
Fixpoint all_some {A} (l : list (option A)) : option (list A) :=
  match l with
  | [] => Some []
  | o :: l => match o, all_some l with Some a, Some l => Some (a :: l) | _, _ => None end
  end.
Definition component (t : quadrature_tables) (coefficient : R) (levels : list nat) : option (list row) :=
  option_map (fun d => combine (cartesian (map fst d)) (map (Rmult coefficient) (reduce_kron (map snd d))))
    (all_some (map (get_quadrature_data t) levels)).
Fixpoint binomial (n k : nat) : nat :=
  match n, k with
  | _, 0 => 1
  | 0, S _ => 0
  | S n, S k => binomial n k + binomial n (S k)
  end.
(** integration.py 280. *)
Definition combination_coefficient (dimensions level q : nat) : R :=
  ((-1) ^ (level - q - 1) * INR (binomial (dimensions - 1) (dimensions + q - level)))%R.
(** One iteration of the first loop.  integration.py 278-307. *)
Definition grid_step (t : quadrature_tables) (fuel dimensions level : nat) (rows : list row) (q : nat) : option (list row) :=
  match same_size_sequences fuel dimensions (dimensions + q) with
  | None => None
  | Some sequences =>
      option_map (fun added => merge (lexsort (rows ++ concat added)))
        (all_some (map (component t (combination_coefficient dimensions level q)) sequences))
  end.
Fixpoint grid_loop (t : quadrature_tables) (fuel dimensions level : nat) (rows : list row) (qs : list nat) : option (list row) :=
  match qs with
  | [] => Some rows
  | q :: qs =>
      match grid_step t fuel dimensions level rows q with
      | None => None
      | Some rows => grid_loop t fuel dimensions level rows qs
      end
  end.
(** Copies to other orthants.  integration.py 309-318. *)
Definition set_nthR (n : nat) (v : R) (l : list R) : list R := firstn n l ++ v :: skipn (S n) l.
Definition reflect (middle : R) (dimension : nat) (x : list R) : list R :=
  set_nthR dimension (2 * middle - nth dimension x 0)%R x.
Definition copy_rows (middle : R) (dimension : nat) (rows : list row) : list row :=
  let copy := filter (fun r => if Req_EM_T (nth dimension (fst r) 0%R) middle then false else true) rows in
  match copy with
  | [] => rows
  | _ => map (fun r => (reflect middle dimension (fst r), snd r)) rows ++ copy
  end.
Definition orthants (middle : R) (dimensions : nat) (rows : list row) : list row :=
  fold_left (fun rows dimension => copy_rows middle dimension rows) (seq 0 dimensions) rows.
(** [sparse_grid].  integration.py 271-324. *)
Definition weights_sum (l : list R) : R := fold_right Rplus 0%R l.
Definition sparse_grid (t : quadrature_tables) (fuel dimensions level : nat) : option (list (list R) * list R) :=
  match grid_loop t fuel dimensions level [] (seq (level - dimensions) (level - (level - dimensions))), get_quadrature_data t 1 with
  | Some rows, Some (x, _) =>
      let rows := lexsort (orthants (nth 0 x 0%R) dimensions rows) in
      let w := map snd rows in
      Some (map fst rows, map (fun v => v / weights_sum w)%R w)
  | _, _ => None
  end.

(* ---------- Simulation ---------- *)

(** [get_prime].  integration.py 228-243. *)
Definition primes : list nat :=
  [2; 3; 5; 7; 11; 13; 17; 19; 23; 29; 31; 37; 41; 43; 47; 53; 59; 61; 67; 71; 73; 79; 83; 89; 97; 101; 103; 107;
   109; 113; 127; 131; 137; 139; 149; 151; 157; 163; 167; 173; 179; 181; 191; 193; 197; 199; 211; 223; 227; 229;
   233; 239; 241; 251; 257; 263; 269; 271; 277; 281; 283; 293; 307; 311; 313; 317; 331; 337; 347; 349; 353; 359;
   367; 373; 379; 383; 389; 397; 401; 409; 419; 421; 431; 433; 439; 443; 449; 457; 461; 463; 467; 479; 487; 491;
   499; 503; 509; 521; 523; 541; 547; 557; 563; 569; 571; 577; 587; 593; 599; 601; 607; 613; 617; 619; 631; 641;
   643; 647; 653; 659; 661; 673; 677; 683; 691; 701; 709; 719; 727; 733; 739; 743; 751; 757; 761; 769; 773; 787;
   797; 809; 811; 821; 823; 827; 829; 839; 853; 857; 859; 863; 877; 881; 883; 887; 907; 911; 919; 929; 937; 941;
   947; 953; 967; 971; 977; 983; 991; 997].
Definition get_prime (dimension : nat) : option nat := nth_error primes dimension.

(** Iterations of [while 1 - factor < 1] that starts at [1 / base] and divides by the base.  In double precision the
    condition is that the factor is larger than 2^-54. *)
Definition digits (base : nat) : nat :=
  length (filter (fun k => Z.ltb (Z.of_nat base ^ Z.of_nat k) (2 ^ 54)) (seq 1 54)).

(** A random number generator: its state, permutations of a number of integers, uniform and normal draws. *)
Record generator (S : Type) := {
  permutation : S -> nat -> list nat * S;
  uniform : S -> nat -> list R * S;
  normal : S -> nat -> nat -> list (list R) * S
}.
Arguments permutation {S}. Arguments uniform {S}. Arguments normal {S}.

Section Builders.
Variable S : Type.
Variable g : generator S.
Variable ppf : R -> R.
Variable t : quadrature_tables.
Variable fuel : nat.

Definition map2 {A B C} (f : A -> B -> C) (a : list A) (b : list B) : list C := map (fun p => f (fst p) (snd p)) (combine a b).
(** The loop over digits.  integration.py 215-220. *)
Fixpoint halton_digits (count base : nat) (scramble : bool) (factor : R) (indices : list nat) (sequence : list R) (state : S)
  : list R * S :=
  match count with
  | 0 => (sequence, state)
  | Datatypes.S count =>
      let remainders := map (fun i => i mod base) indices in
      let indices := map (fun i => i / base) indices in
      let (remainders, state) :=
        if scramble then let (p, state) := permutation g state base in (map (fun k => nth k p 0) remainders, state)
        else (remainders, state) in
      halton_digits count base scramble (factor / INR base)%R indices
        (map2 (fun s k => s + factor * INR k)%R sequence remainders) state
  end.
(** The loop over dimensions.  integration.py 211-220. *)
Fixpoint halton_columns (dimension dimensions size start : nat) (scramble : bool) (state : S) : option (list (list R) * S) :=
  match dimensions with
  | 0 => Some ([], state)
  | Datatypes.S dimensions =>
      match get_prime dimension with
      | None => None
      | Some base =>
          let (column, state) :=
            halton_digits (digits base) base scramble (1 / INR base)%R (seq start size) (repeat 0%R size) state in
          option_map (fun r => (column :: fst r, snd r)) (halton_columns (Datatypes.S dimension) dimensions size start scramble state)
      end
  end.
Definition transposed (size : nat) (columns : list (list R)) : list (list R) :=
  map (fun q => map (fun c => ppf (nth q c 0%R)) columns) (seq 0 size).
Definition equal_weights (size : nat) : list R := repeat (1 / INR size)%R size.
(** [halton].  integration.py 206-225. *)
Definition halton (dimensions size start : nat) (scramble : bool) (state : S) : option ((list (list R) * list R) * S) :=
  option_map (fun r => ((transposed size (fst r), equal_weights size), snd r))
    (halton_columns 0 dimensions size start scramble state).

(** [lhs].  integration.py 246-257.  Arguments of [state.permutation] are evaluated first; one shift is broadcast. *)
Definition lhs_column (size : nat) (modified : bool) (state : S) : list R * S :=
  let (u, state) := uniform g state (if modified then 1 else size) in
  let shifted := map (fun i => INR i + nth (if modified then 0 else i) u 0)%R (seq 0 size) in
  let (p, state) := permutation g state size in
  (map (fun k => nth k shifted 0 / INR size)%R p, state).
Fixpoint lhs_columns (dimensions size : nat) (modified : bool) (state : S) : list (list R) * S :=
  match dimensions with
  | 0 => ([], state)
  | Datatypes.S dimensions =>
      let (column, state) := lhs_column size modified state in
      let (columns, state) := lhs_columns dimensions size modified state in
      (column :: columns, state)
  end.
Definition lhs (dimensions size : nat) (modified : bool) (state : S) : (list (list R) * list R) * S :=
  let (columns, state) := lhs_columns dimensions size modified state in
  ((transposed size columns, equal_weights size), state).

(** [monte_carlo].  integration.py 199-203. *)
Definition monte_carlo (dimensions size : nat) (state : S) : (list (list R) * list R) * S :=
  let (nodes, state) := normal g state size dimensions in ((nodes, equal_weights size), state).

Inductive specification := MonteCarlo | Halton (discard : nat) (scramble : bool) | Lhs (modified : bool)
  | ProductRule (nested : bool) | Grid.
(** One call to the builder.  integration.py 178-182, 188-197.  Tables are those of the specification, nested or not. *)
Definition build (s : specification) (dimensions size count : nat) (state : S) : option ((list (list R) * list R) * S) :=
  match s with
  | MonteCarlo => Some (monte_carlo dimensions size state)
  | Halton discard scramble => halton dimensions size (discard + count) scramble state
  | Lhs modified => Some (lhs dimensions size modified state)
  | ProductRule nested => option_map (fun r => (r, state)) (product_rule t dimensions size nested)
  | Grid => option_map (fun r => (r, state)) (sparse_grid t fuel dimensions size)
  end.
(** [_build_many].  integration.py 162-186. *)
Fixpoint build_many {I} (s : specification) (dimensions size count : nat) (ids : list I) (state : S)
  : option (list I * list (list R) * list R) :=
  match ids with
  | [] => Some ([], [], [])
  | i :: ids =>
      match build s dimensions size count state with
      | None => None
      | Some ((nodes, weights), state) =>
          option_map (fun r => (repeat i (length weights) ++ fst (fst r), nodes ++ snd (fst r), weights ++ snd r))
            (build_many s dimensions size (count + length weights) ids state)
      end
  end.
End Builders.
