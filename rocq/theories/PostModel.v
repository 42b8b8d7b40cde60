(** Model of arguments of post-estimation methods: how they are validated, restricted to markets, and
    how results of bootstrapped results are put together.  Markets are integers.  Definitions only. *)
From Coq Require Import Reals ZArith List Bool Arith.
From Verif Require Import Base BasicsModel SchedModel.
Import ListNotations.
Local Open Scope nat_scope.

(** [_select_market_ids].  economy_results.py 65-71.  None: ValueError. *)
Definition select_market_ids (unique_market_ids : list Z) (market_id : option Z) : option (list Z) :=
  match market_id with
  | None => Some unique_market_ids
  | Some t => if existsb (Z.eqb t) unique_market_ids then Some [t] else None
  end.

(** [i.size for t, i in self._economy._product_market_indices.items() if t in market_ids].
    economy_results.py 76-77. *)
Definition selected_sizes (indices : list (Z * list nat)) (market_ids : list Z) : list nat :=
  map (fun item => List.length (snd item))
    (filter (fun item => existsb (Z.eqb (fst item)) market_ids) indices).

Definition list_sum_of (l : list nat) : nat := fold_right Nat.add 0 l.
Definition list_max_of (l : list nat) : nat := fold_right Nat.max 0 l.

Section Arrays.
  Context {V : Type}.

  (** A two-dimensional array with its shape; None is NaN. *)
  Record stacked := { st_rows : nat; st_columns : nat; st_cell : nat -> nat -> option V }.

  (** [_coerce_matrices].  economy_results.py 73-80.  None: ValueError. *)
  Definition coerce_matrices (indices : list (Z * list nat)) (market_ids : list Z) (m : stacked) : option stacked :=
    let sizes := selected_sizes indices market_ids in
    if Nat.eqb (st_rows m) (list_sum_of sizes) && Nat.eqb (st_columns m) (list_max_of sizes)
    then Some m else None.

  (** [_coerce_optional_delta], costs, prices and shares, which are all of one kind, and
      [_coerce_optional_firm_ids].  economy_results.py 82-120, economy.py 299-312. *)
  Definition coerce_column (indices : list (Z * list nat)) (market_ids : list Z) (m : stacked) : option stacked :=
    if Nat.eqb (st_rows m) (list_sum_of (selected_sizes indices market_ids)) && Nat.eqb (st_columns m) 1
    then Some m else None.

  (** [_coerce_optional_ownership].  economy.py 314-335.  The loop is over selected markets. *)
  Definition coerce_ownership (market_rows : Z -> list nat) (market_ids : list Z) (m : stacked) : option stacked :=
    let '(rows, columns) :=
      fold_left (fun '(rows, columns) t =>
                   let size := List.length (market_rows t) in (rows + size, Nat.max columns size))
        market_ids (0, 0) in
    if Nat.eqb (st_rows m) rows && Nat.eqb (st_columns m) columns then Some m else None.

  (** What [market_factory] passes on: the whole array if one market is selected, otherwise the rows
      of the market.  economy_results.py 1231-1234. *)
  Definition market_argument (market_rows : Z -> list nat) (market_ids : list Z) (m : stacked) (t : Z) : stacked :=
    if Nat.eqb (List.length market_ids) 1 then m
    else {| st_rows := List.length (market_rows t); st_columns := st_columns m;
            st_cell := fun i j => st_cell m (nth i (market_rows t) 0) j |}.

  (** The shape and contents of what [_combine_arrays] returns (the model in SchedModel.v has only
      contents).  All rows of a market's array have the same number of columns.
      economy_results.py 1252-1259. *)
  Definition width (a : list (list V)) : nat := match a with [] => 0 | row :: _ => List.length row end.
  Definition combined (N : nat) (market_rows : Z -> list nat) (market_ids order : list Z)
      (f : Z -> list (list V)) : stacked :=
    {| st_rows := total_rows market_ids f;
       st_columns := list_max_of (map (fun t => width (f t)) market_ids);
       st_cell := combine_arrays N market_rows market_ids order f |}.

  (** [matrix[:, :self.J].diagonal()], as a column.  economy_results_market.py 211-216; J is the
      number of products in the market. *)
  Definition extract_diagonal (J : nat) (m : stacked) : list (list (option V)) :=
    map (fun i => [st_cell m i i]) (seq 0 (Nat.min (st_rows m) (Nat.min J (st_columns m)))).

  (** [get_ownership_matrix] when ownership is given.  market.py 173-174. *)
  Definition given_ownership (J : nat) (m : stacked) : stacked :=
    {| st_rows := st_rows m; st_columns := Nat.min J (st_columns m); st_cell := st_cell m |}.
End Arrays.

(** [extract_diagonals].  economy_results.py 430-461. *)
Definition extract_diagonals {V} (ids : list Z) (p : list nat) (market_ids order : list Z) (m : @stacked V)
    : option (@stacked (option V)) :=
  match coerce_matrices (get_indices ids p) market_ids m with
  | None => None
  | Some m =>
      Some (combined (List.length ids) (market_indices ids p) market_ids order
              (fun t => extract_diagonal (List.length (market_indices ids p t))
                          (market_argument (market_indices ids p) market_ids m t)))
  end.

(** [.mean()] of numbers some of which may be NaN. *)
Fixpoint nan_total (l : list (option R)) : option R :=
  match l with
  | [] => Some 0%R
  | Some x :: l' => match nan_total l' with Some s => Some (x + s)%R | None => None end
  | None :: _ => None
  end.
Definition diagonal_mean (l : list (list (option R))) : option R :=
  match nan_total (concat l) with Some s => Some (s / INR (List.length l))%R | None => None end.

(** [extract_diagonal_means].  economy_results.py 463-499, economy_results_market.py 218-223. *)
Definition extract_diagonal_means (ids : list Z) (p : list nat) (market_ids order : list Z) (m : @stacked R)
    : option (@stacked (option R)) :=
  match coerce_matrices (get_indices ids p) market_ids m with
  | None => None
  | Some m =>
      Some (combined (List.length ids) (market_indices ids p) market_ids order
              (fun t => [[diagonal_mean (extract_diagonal (List.length (market_indices ids p t))
                          (market_argument (market_indices ids p) market_ids m t))]]))
  end.

(** [get_ownership_matrix] when only firm IDs are given.  market.py 175-176. *)
Definition firm_ownership (firm_ids : list Z) (i j : nat) : R :=
  if Z.eqb (nth i firm_ids 0%Z) (nth j firm_ids 0%Z) then 1%R else 0%R.

(* ---------- BootstrappedResults._combine_arrays ---------- *)

Section Bootstrapped.
  Context {V : Type}.

  (** One pass of the loop that stacks arrays.  bootstrapped_results.py 261-272.  Whether rows are
      products or markets is decided with the first draw (253-258). *)
  Definition bootstrap_one (N : nat) (market_rows : Z -> list nat) (market_ids : list Z)
      (f : nat -> Z -> @rows_matrix V) (c : nat -> @cells V) (pair : nat * Z) : nat -> @cells V :=
    let '(d, t) := pair in
    fun e =>
      if Nat.eqb e d then
        if Nat.eqb (total_rows market_ids (f 0)) (List.length market_ids)
        then put_rows (c e) (mask_positions market_ids t) (f d t)
        else if Nat.eqb (total_rows market_ids (f 0)) N
        then put_rows (c e) (market_rows t) (f d t)
        else matrix_cell (f d t)
      else c e.
  Definition bootstrap_combine (N : nat) (market_rows : Z -> list nat) (market_ids : list Z)
      (order : list (nat * Z)) (f : nat -> Z -> @rows_matrix V) : nat -> @cells V :=
    fold_left (bootstrap_one N market_rows market_ids f) order (fun _ _ _ => None).

  (** Arguments that vary over draws.  bootstrapped_results.py 222-234. *)
  Definition bootstrap_argument (market_rows : Z -> list nat) (market_ids : list Z) (m : nat -> @stacked V)
      (d : nat) (t : Z) : stacked := market_argument market_rows market_ids (m d) t.
End Bootstrapped.
