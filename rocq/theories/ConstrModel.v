(** Construction of data: IDs, ownership matrices and instruments.  /repo/pyblp/construction.py.  IDs are integers, in the
    order NumPy sorts them, and arithmetic is exact.  Validation of fields is left out.  Definitions only. *)
From Coq Require Import Reals ZArith List Bool Arith.
From Verif Require Import Base FltModel BasicsModel.
Import ListNotations.
Local Open Scope nat_scope.

(* ---------- build_id_data ---------- *)

(** Rows of [build_id_data]: market and firm IDs.  construction.py 54-61.  None: ValueError.  The quotient of integers
    below 2^53 is rounded to a floating point number that has the same floor, so the division is an exact one. *)
Definition build_id_data (T J F : nat) : option (list (nat * nat)) :=
  if (T <? 1) || (F <? 1) then None
  else if J <? F then None
  else Some (combine (flat_map (fun t => repeat t J) (seq 0 T))
                     (map (fun j => j * F / J) (flat_map (fun _ => seq 0 J) (seq 0 T)))).

(* ---------- Assignment of rows ---------- *)

(** [array[rows] = block]. *)
Definition assign_rows {A} (rows : list nat) (block : nat -> A) (array : nat -> A) (n : nat) : A :=
  if existsb (Nat.eqb n) rows then block (position n rows) else array n.
(** A loop over [get_indices(market_ids).values()] that assigns the rows of each market. *)
Definition by_market {A} (indices : list (Z * list nat)) (block : list nat -> nat -> A) (array : nat -> A) : nat -> A :=
  fold_left (fun array market => assign_rows (snd market) (block (snd market)) array) indices array.
Definition market_indices (market_ids : list Z) : list (Z * list nat) := get_indices market_ids (stable_argsort market_ids).

(* ---------- build_ownership ---------- *)

Inductive kappa_specification := Default | Callable (kappa : Z -> Z -> R) | Monopoly | Single.
(** The element in row q and column r of the block for the products of one market.  construction.py 124-128, 159-169. *)
Definition kappa_block (firm_ids : list Z) (kappa : kappa_specification) (rows : list nat) (q r : nat) : R :=
  let f := nth (nth q rows 0) firm_ids 0%Z in
  let g := nth (nth r rows 0) firm_ids 0%Z in
  match kappa with
  | Default => if Z.eqb f g then 1%R else 0%R
  | Callable kappa => kappa f g
  | Monopoly => 1%R
  | Single => if Nat.eqb q r then 1%R else 0%R
  end.
(** [build_ownership]: the element in row n and column c.  construction.py 151-171. *)
Definition max_J (market_ids : list Z) : nat :=
  fold_right (fun market m => Nat.max (length (snd market)) m) 0 (market_indices market_ids).
Definition build_ownership (market_ids firm_ids : list Z) (kappa : kappa_specification) : nat -> nat -> flt :=
  by_market (market_indices market_ids)
    (fun rows q c => if c <? length rows then Num (kappa_block firm_ids kappa rows q c) else NaN)
    (fun _ _ => NaN).

(* ---------- build_blp_instruments ---------- *)

(** [interact_ids] of two columns: tuples, which are sorted lexicographically.  An interacted ID is represented by the
    number of rows with a smaller one.  basics.py 279-284. *)
Definition lex_lt (a b : Z * Z) : bool := (fst a <? fst b)%Z || ((fst a =? fst b)%Z && (snd a <? snd b)%Z).
Definition interact_ids (a b : list Z) : list Z :=
  let pairs := combine a b in
  map (fun x => Z.of_nat (length (filter (fun y => lex_lt y x) pairs))) pairs.
(** The columns of other and rival sums for a characteristic x, given argsorts of the IDs (Groups sorts in an unspecified
    order among ties).  construction.py 249-258. *)
Section BLP.
  Variables (market_ids firm_ids : list Z) (market_sort paired_sort : list nat) (x : nat -> R).
  Definition blp_other (n : nat) : R :=
    let ids := interact_ids market_ids firm_ids in
    (group_expand ids paired_sort (group_sum ids paired_sort x) n - x n)%R.
  Definition blp_rival (n : nat) : R :=
    (group_expand market_ids market_sort (group_sum market_ids market_sort x) n - x n - blp_other n)%R.
End BLP.

(* ---------- build_differentiation_instruments ---------- *)

Section Differentiation.
  Variables (market_ids firm_ids : list Z) (K : nat) (X : nat -> nat -> R).
  (** [np.nan_to_num(np.inf)]: the largest floating point number. *)
  Variable huge : R.
  (** The distance between products q and r of a market in terms of characteristic k. *)
  Definition distance (rows : list nat) (k q r : nat) : R := (X (nth q rows 0%nat) k - X (nth r rows 0%nat) k)%R.
  (** First pass: accumulated counts, sums and sums of squares.  construction.py 391-402. *)
  Definition diagonal_filled (fill : flt) (rows : list nat) (k q r : nat) : flt :=
    if Nat.eqb q r then fill else Num (distance rows k q r).
  Definition value (x : flt) : R := match x with Num r => r | _ => 0%R end.
  Definition accumulate (k : nat) (acc : Z * R * R) (market : Z * list nat) : Z * R * R :=
    let rows := snd market in
    let J := length rows in
    let d := fun q r => value (diagonal_filled (Num 0) rows k q r) in
    let '(count, total, squares) := acc in
    ((count + (Z.of_nat (J * J) - Z.of_nat J))%Z,
     (total + sumn J (fun q => sumn J (fun r => d q r)))%R,
     (squares + sumn J (fun q => sumn J (fun r => d q r * d q r)))%R).
  (** Without pairs, 0 / 0 is NaN. *)
  Definition sd (k : nat) : flt :=
    let '(count, total, squares) := fold_left (accumulate k) (market_indices market_ids) (0%Z, 0%R, 0%R) in
    if (count =? 0)%Z then NaN
    else Num (sqrt (squares / IZR count - (total / IZR count) * (total / IZR count)))%R.

  Inductive version := Local | Quadratic.
  (** [np.abs(distance) < sd]; comparisons with NaN are false. *)
  Definition is_close (distance sd : flt) : bool :=
    match distance, sd with Num d, Num s => rltb (Rabs d) s | _, _ => false end.
  Definition nan_to_num (x : flt) : R := match x with Num r => r | PInf => huge | NInf => (- huge)%R | NaN => 0%R end.
  (** [generate_instrument_terms].  construction.py 415-429. *)
  Definition instrument_terms (v : version) (interact : bool) (rows : list nat) : list (nat -> nat -> R) :=
    flat_map (fun k1 =>
      match v with
      | Quadratic =>
          map (fun k2 q r => (value (diagonal_filled (Num 0) rows k1 q r) * value (diagonal_filled (Num 0) rows k2 q r))%R)
              (if interact then seq k1 (K - k1) else [k1])
      | Local =>
          let close := fun q r => indR (is_close (diagonal_filled PInf rows k1 q r) (sd k1)) in
          if interact then map (fun k2 q r => (close q r * nan_to_num (diagonal_filled PInf rows k2 q r))%R) (seq 0 K)
          else [close]
      end) (seq 0 K).
  (** A row of the block of instruments for a market.  construction.py 431-441. *)
  Definition ownership (rows : list nat) (q r : nat) : R :=
    indR (Z.eqb (nth (nth q rows 0) firm_ids 0%Z) (nth (nth r rows 0) firm_ids 0%Z)).
  Definition instrument_block (v : version) (interact : bool) (rows : list nat) (q : nat) : list R :=
    let J := length rows in
    map (fun term => sumn J (fun r => (ownership rows q r * term q r)%R)) (instrument_terms v interact rows) ++
    map (fun term => sumn J (fun r => ((1 - ownership rows q r) * term q r)%R)) (instrument_terms v interact rows).
  Definition build_differentiation_instruments (v : version) (interact : bool) : nat -> list R :=
    by_market (market_indices market_ids) (instrument_block v interact) (fun _ => []).
End Differentiation.
