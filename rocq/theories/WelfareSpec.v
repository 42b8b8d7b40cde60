(** Specification of the welfare measures, independent of the model of the code. *)
From Coq Require Import Reals ZArith List Bool Arith.
From Verif Require Import Base DemandSpec.
Import ListNotations.
Local Open Scope R_scope.

(** Expected maximum utility (up to Euler's constant) over the included goods and an outside good of
    utility zero, when utilities are V and idiosyncratic tastes are extreme value with scale [eps]. *)
Definition expected_max (J : nat) (inc : nat -> bool) (eps : R) (V : nat -> R) : R :=
  eps * ln (1 + sumn J (fun j => if inc j then exp (V j / eps) else 0)).

(** The same for nested logit: the log of one plus exponentiated inclusive values. *)
Definition nested_expected_max (J H : nat) (grp : nat -> nat) (r : nat -> R) (inc : nat -> bool)
    (V : nat -> R) : R :=
  ln (1 + sumn H (group_weight J grp r inc V)).

(** Sum over a list. *)
Definition total {A} (f : A -> R) (l : list A) : R := fold_right (fun x acc => f x + acc) 0 l.

(** The documented index: 10,000 times the sum of squared firm shares, for any duplicate-free list
    naming every firm. *)
Definition is_hhi (normalised : bool) (products : list (Z * R)) (h : R) : Prop :=
  forall firms : list Z, NoDup firms ->
    (forall f, In f firms <-> exists s, In (f, s) products) ->
    h = 10000 * total (fun f =>
          let s := total (fun p => if Z.eqb (fst p) f then snd p else 0) products in
          let s := if normalised then s / total snd products else s in
          s * s) firms.

(** Utilities of one agent as a function of prices exhibit no income effects: raising the price of a
    product lowers its utility at the constant rate a, the same for all products, and moves no other. *)
Definition no_income_effects (J : nat) (V : (nat -> R) -> nat -> R) (a : R) : Prop :=
  forall x k j, (j < J)%nat -> (k < J)%nat ->
    derivable_pt_lim (fun t => V (upd x k t) j) (x k) (if Nat.eqb j k then - a else 0).
