(** What bounds are documented to be. *)
From Coq Require Import Reals List Bool Arith.
From Verif Require Import Base FltModel BoundModel.
Import ListNotations.
Local Open Scope R_scope.

(** The one number that a bound is, where None is not a number. *)
Definition number (h : memory) (g : given) (x : flt) : Prop :=
  match g with
  | NoBound => x = NaN
  | Number y => x = y
  | Converted l => l = [Some x] \/ l = [None] /\ x = NaN
  | Floats a => h a = [x]
  end.
(** "Both None and numpy.nan are converted to -numpy.inf in lb and to numpy.inf in ub." *)
Definition documented (missing x : flt) : flt := match x with NaN => missing | _ => x end.
(** Bounds that are not the same array. *)
Definition separate (l u : given) : Prop := match l, u with Floats a, Floats b => a <> b | _, _ => True end.

(** Being within bounds. *)
Definition within (bounds : option R * option R) (c : R) : Prop :=
  (forall lo, fst bounds = Some lo -> lo <= c) /\ (forall hi, snd bounds = Some hi -> c <= hi).
Definition inside (bounds : option R * option R) (c : R) : Prop :=
  (forall lo, fst bounds = Some lo -> lo < c) /\ (forall hi, snd bounds = Some hi -> c < hi).
Definition outside (bounds : option R * option R) (c : R) : Prop :=
  (exists lo, fst bounds = Some lo /\ c < lo) \/ (exists hi, snd bounds = Some hi /\ hi < c).
Definition proper (bounds : option R * option R) : Prop := forall lo hi, bounds = (Some lo, Some hi) -> lo <= hi.
