(** Model of how product and agent data are validated and put together.  Market IDs are integers in
    the order NumPy sorts them.  Definitions only. *)
From Coq Require Import Reals ZArith List Bool Arith.
From Verif Require Import FltModel BasicsModel.
Import ListNotations.

(** ** Lag indices *)

Definition flt_eq_dec (x y : flt) : {x = y} + {x <> y}.
Proof. decide equality; apply Req_EM_T. Defined.

(** [astype(np.int64)] of a float: truncation towards zero; NaN and infinities become the smallest
    integer (as on x86; overflow of finite values is not modelled). *)
Definition to_int64 (x : flt) : Z :=
  match x with
  | Num r => if Rle_dec 0 r then Int_part r else (- Int_part (- r))%Z
  | _ => (- 2 ^ 63)%Z
  end.

(** Which rows are marked as initial periods: [lag_indices == np.c_[np.arange(N)]]. *)
Fixpoint initial_mask (row : nat) (lags : list flt) : list bool :=
  match lags with
  | [] => []
  | x :: rest => feqb x (Num (INR row)) :: initial_mask (S row) rest
  end.

Fixpoint not_initial (row : nat) (lags : list flt) : list flt :=
  match lags with
  | [] => []
  | x :: rest => if feqb x (Num (INR row)) then not_initial (S row) rest else x :: not_initial (S row) rest
  end.

(** The validation of the [lag_indices] field and its conversion.  primitives.py 193-216, 258.
    [np.unique] counts NaN once. *)
Definition load_lags (lags : list flt) : option (list Z) :=
  let N := List.length lags in
  if negb (forallb (fun x => fleb (Num 0) x) lags) && forallb (fun x => fleb x (Num (INR N - 1))) lags then None
  else if negb (existsb (fun b => b) (initial_mask 0 lags)) then None
  else if negb (Nat.eqb (List.length (nodup flt_eq_dec (not_initial 0 lags))) (List.length (not_initial 0 lags))) then None
  else Some (map to_int64 lags).

(** [x[lag_indices]] for one row: NumPy counts negative indices from the end and raises otherwise. *)
Definition lagged_row (N : nat) (lag : Z) : option nat :=
  if (0 <=? lag)%Z && (lag <? Z.of_nat N)%Z then Some (Z.to_nat lag)
  else if (- Z.of_nat N <=? lag)%Z && (lag <? 0)%Z then Some (Z.to_nat (Z.of_nat N + lag))
  else None.

(** ** Shares *)

(** The validation of shares.  primitives.py 218-234.  [p] is the argsort inside [Groups]. *)
Definition finite_part (x : flt) : R := match x with Num r => r | _ => 0%R end.
Definition load_shares (market_ids : list Z) (p : list nat) (shares : list flt) : option (list R) :=
  if negb (forallb ffin shares) then None
  else if existsb (fun x => fleb x (Num 0)) shares || existsb (fun x => fleb (Num 1) x) shares then None
  else
    let s := map finite_part shares in
    if existsb (fun total => fleb (Num 1) (Num total)) (group_sum market_ids p (fun j => nth j s 0%R)) then None
    else Some s.

(** ** Agents *)

Section Agents.
Context {I D A N : Type}.

(** The fields of [agent_data] that are loaded.  Nodes come with their weights. *)
Record agent_data := AgentData {
  loaded_markets : list Z;
  loaded_ids : option (list I);
  loaded_demographics : option (list D);
  loaded_availability : option (list A);
  loaded_nodes : option (list N)
}.

(** A record array of agents. *)
Record agents := Agents {
  agent_markets : list Z;
  agent_nodes : list N;
  agent_ids : option (list I);
  agent_demographics : option (list D);
  agent_availability : option (list A)
}.

(** [structured[name] = matrix] for an array of [size] rows: NumPy broadcasts a single row and raises
    for any other number of rows.  basics.py 206-210.  An outer [None] is an exception. *)
Definition fill {X} (size : nat) (column : option (list X)) : option (option (list X)) :=
  match column with
  | None => Some None
  | Some l =>
      if Nat.eqb (List.length l) size then Some (Some l)
      else match l with
           | [x] => Some (Some (repeat x size))
           | _ => None
           end
  end.

Definition structure_agents (market_ids : list Z) (nodes : list N) (ids : option (list I)) (demographics : option (list D))
    (availability : option (list A)) : option agents :=
  let size := List.length market_ids in
  match fill size (Some nodes), fill size ids, fill size demographics, fill size availability with
  | Some (Some n), Some i, Some d, Some a => Some (Agents market_ids n i d a)
  | _, _, _, _ => None
  end.

Definition select {X} (t : Z) (market_ids : list Z) (l : list X) : list X :=
  map snd (filter (fun r => Z.eqb (fst r) t) (combine market_ids l)).

Definition count_of (t : Z) (market_ids : list Z) : nat := List.length (filter (Z.eqb t) market_ids).

(** The loop that deletes rows of demographics.  primitives.py 377-391. *)
Fixpoint truncate_demographics (built loaded : list Z) (demographics : list D) (markets : list Z) : option (list D) :=
  match markets with
  | [] => Some []
  | t :: rest =>
      if Nat.ltb (count_of t loaded) (count_of t built) then None
      else option_map (fun l => firstn (count_of t built) (select t loaded demographics) ++ l)
             (truncate_demographics built loaded demographics rest)
  end.

(** [set(np.unique(products.market_ids)) != set(np.unique(market_ids))].  primitives.py 358. *)
Definition same_markets (a b : list Z) : bool :=
  if list_eq_dec Z.eq_dec (np_unique a) (np_unique b) then true else false.

(** [Agents.__new__] with agent data and an integration configuration whose [_build_many] gives the
    nodes [block t] (with weights) to market [t].  primitives.py 348-391, 427-434.  Formulations, the
    numbers of columns, and the warning about weights are not modelled. *)
Definition agents_integrated (product_markets : list Z) (data : agent_data) (block : Z -> list N) : option agents :=
  if negb (same_markets product_markets (loaded_markets data)) then None
  else
    let markets := np_unique product_markets in
    let built := flat_map (fun t => repeat t (List.length (block t))) markets in
    let nodes := flat_map block markets in
    let demographics :=
      match loaded_demographics data with
      | None => Some None
      | Some d => option_map Some (truncate_demographics built (loaded_markets data) d (np_unique built))
      end in
    match demographics with
    | None => None
    | Some d => structure_agents built nodes (loaded_ids data) d (loaded_availability data)
    end.

(** [Agents.__new__] with agent data alone.  primitives.py 348-367, 393-416, 427-434. *)
Definition agents_loaded (product_markets : list Z) (data : agent_data) : option agents :=
  if negb (same_markets product_markets (loaded_markets data)) then None
  else match loaded_nodes data with
       | None => None
       | Some nodes => structure_agents (loaded_markets data) nodes (loaded_ids data) (loaded_demographics data)
                         (loaded_availability data)
       end.
End Agents.
Arguments agent_data : clear implicits.
Arguments agents : clear implicits.

(** ** Micro agents *)

(** [np.repeat(x, repeats, axis=0)]. *)
Definition np_repeat {X} (l : list X) (repeats : list nat) : list X :=
  flat_map (fun r => repeat (fst r) (snd r)) (combine l repeats).

(** [np.bincount] of nonnegative integers. *)
Definition bincount (l : list nat) : list nat :=
  map (fun v => List.length (filter (Nat.eqb v) l)) (seq 0 (S (list_max l))).

(** The rows that an integration configuration builds for micro data, where observation [n] gets the
    nodes [block n], and the duplication of a field of micro data.  primitives.py 528-546. *)
Definition micro_ids_built {N} (count : nat) (block : nat -> list N) : list nat :=
  flat_map (fun n => repeat n (List.length (block n))) (seq 0 count).
Definition micro_duplicate {N X} (count : nat) (block : nat -> list N) (field : list X) : list X :=
  np_repeat field (bincount (micro_ids_built count block)).

(** [(micro_ids == np.sort(micro_ids)).all()] on a matrix with one column: NumPy sorts along the last
    axis, that is each row of one element.  primitives.py 499. *)
Definition sorted_check (micro_ids : list (list Z)) : bool :=
  forallb (fun row => if list_eq_dec Z.eq_dec row (np_unique row) then true else false) micro_ids.
