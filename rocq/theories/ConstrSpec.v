(** What IDs, ownership matrices and instruments should be, in terms of rows of product data. *)
From Coq Require Import Reals ZArith List Bool Arith.
Import ListNotations.
Local Open Scope R_scope.

(** Sum over rows below N that satisfy a condition. *)
Fixpoint sum_where (N : nat) (condition : nat -> bool) (x : nat -> R) : R :=
  match N with
  | O => 0
  | S M => sum_where M condition x + (if condition M then x M else 0)
  end.
Definition same (ids : list Z) (n m : nat) : bool := Z.eqb (nth n ids 0%Z) (nth m ids 0%Z).

(** The firm's other products in the market of row n, and rivals' products. *)
Definition others (market_ids firm_ids : list Z) (n m : nat) : bool :=
  same market_ids n m && same firm_ids n m && negb (Nat.eqb n m).
Definition rivals (market_ids firm_ids : list Z) (n m : nat) : bool :=
  same market_ids n m && negb (same firm_ids n m).

(** How many times a value occurs. *)
Definition occurrences (x : nat) (l : list nat) : nat := count_occ Nat.eq_dec l x.

(** All ordered pairs of different products in the same market: mean and standard deviation of differences d. *)
Definition pairs_sum (N : nat) (market_ids : list Z) (f : nat -> nat -> R) : R :=
  sum_where N (fun _ => true) (fun n => sum_where N (fun m => same market_ids n m && negb (Nat.eqb n m)) (f n)).
Definition pairs_mean (N : nat) (market_ids : list Z) (f : nat -> nat -> R) : R :=
  pairs_sum N market_ids f / pairs_sum N market_ids (fun _ _ => 1).
Definition pairs_sd (N : nat) (market_ids : list Z) (d : nat -> nat -> R) : R :=
  sqrt (pairs_mean N market_ids (fun n m => (d n m - pairs_mean N market_ids d) * (d n m - pairs_mean N market_ids d))).

(** Functions of differences d n m = x m - x n in the documentation. *)
Definition difference (X : nat -> nat -> R) (k n m : nat) : R := X m k - X n k.
Definition indicator (b : bool) : R := if b then 1 else 0.
Definition near (s d : R) : R := if Rlt_dec (Rabs d) s then 1 else 0.
Inductive documented := QuadraticSquares | QuadraticProducts | LocalIndicators | LocalProducts.
Definition documented_terms (N K : nat) (market_ids : list Z) (X : nat -> nat -> R) (which : documented) : list (nat -> nat -> R) :=
  let d := difference X in
  let s := fun l => pairs_sd N market_ids (d l) in
  flat_map (fun l =>
    match which with
    | QuadraticSquares => [fun n m => d l n m * d l n m]
    | QuadraticProducts => map (fun l' n m => d l n m * d l' n m) (seq l (K - l))
    | LocalIndicators => [fun n m => near (s l) (d l n m)]
    | LocalProducts => map (fun l' n m => near (s l) (d l n m) * d l' n m) (seq 0 K)
    end) (seq 0 K).
Definition documented_instruments (market_ids firm_ids : list Z) (K : nat) (X : nat -> nat -> R) (which : documented) (n : nat) : list R :=
  let N := length market_ids in
  map (fun f => sum_where N (others market_ids firm_ids n) (f n)) (documented_terms N K market_ids X which) ++
  map (fun f => sum_where N (rivals market_ids firm_ids n) (f n)) (documented_terms N K market_ids X which).
