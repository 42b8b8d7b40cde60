(** Model of how [Market.compute_delta] runs an iteration routine on the linear contraction:
    /repo/pyblp/markets/market.py 573-608 and /repo/pyblp/configurations/iteration.py 258-300.
    Definitions only. *)
From Coq Require Import Reals List Bool Arith.
From Verif Require Import Base FltModel IterModel DemandModel.
Import ListNotations.
Local Open Scope R_scope.

(** [infinity_norm].  iteration.py 297-300: [np.abs(x).max()].  Starting from zero makes no
    difference for a nonempty vector; NumPy raises an error for an empty one. *)
Definition fabs (x : flt) : flt :=
  match x with Num a => Num (Rabs a) | PInf => PInf | NInf => PInf | NaN => NaN end.
Definition infinity_norm (x : fvec) : flt := fold_right (fun a acc => fmax (fabs a) acc) (Num 0) x.

(** A (J, 1) column and the flattened vector that the routines work with.  iteration.py 278-287. *)
Definition fnum (x : flt) : R := match x with Num a => a | _ => 0 end.
Definition column (x : fvec) (j : nat) : R := fnum (nth j x NaN).
Definition flat (J : nat) (x : nat -> R) : fvec := map (fun j => Num (x j)) (seq 0 J).

(** The function given to the routine: the linear contraction without norm weights.
    market.py 573-606.  Values that are not finite are mapped to NaN altogether: in the code they
    spread through the sums over products and agents; the theorems are about finite values. *)
Definition delta_function (m : market) (a : agents) (safe : bool) (bounds : option R * option R)
    (shares : nat -> R) : contraction_fn :=
  fun _ _ _ x =>
    if vfin x then (flat (mJ m) (contraction m a safe bounds shares (column x)), None)
    else (repeat NaN (mJ m), None).
