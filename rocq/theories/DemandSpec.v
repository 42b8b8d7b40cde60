(** Specification of discrete choice demand, written from the documentation (docs/background.rst and
    the docstrings) and independent of the model of the code. *)
From Coq Require Import Reals List Bool Arith.
From Verif Require Import Base.
Local Open Scope R_scope.

(** Logit choice probabilities over the included inside goods (and the outside good if [out]). *)
Definition logit (J : nat) (inc : nat -> bool) (out : bool) (V : nat -> R) (j : nat) : R :=
  if inc j
  then exp (V j) / (indR out + sumn J (fun k => if inc k then exp (V k) else 0))
  else 0.

(** Sum of exp(V_k / (1 - rho_h)) over the included products of group h. *)
Definition inclusive (J : nat) (grp : nat -> nat) (r : nat -> R) (inc : nat -> bool)
    (V : nat -> R) (h : nat) : R :=
  sumn J (fun k => if inc k && Nat.eqb (grp k) h then exp (V k / (1 - r h)) else 0).

(** exp of the inclusive value (1 - rho_h) log sum_k exp(V_k / (1 - rho_h)); zero for a group
    without included products. *)
Definition group_weight (J : nat) (grp : nat -> nat) (r : nat -> R) (inc : nat -> bool)
    (V : nat -> R) (h : nat) : R :=
  if existsb (fun k => inc k && Nat.eqb (grp k) h) (seq 0 J)
  then Rpower (inclusive J grp r inc V h) (1 - r h) else 0.

(** Nested logit: within-group share times group share. *)
Definition within_group (J : nat) (grp : nat -> nat) (r : nat -> R) (inc : nat -> bool)
    (V : nat -> R) (j : nat) : R :=
  if inc j then exp (V j / (1 - r (grp j))) / inclusive J grp r inc V (grp j) else 0.

Definition group_share (J H : nat) (grp : nat -> nat) (r : nat -> R) (inc : nat -> bool)
    (out : bool) (V : nat -> R) (h : nat) : R :=
  group_weight J grp r inc V h / (indR out + sumn H (group_weight J grp r inc V)).

Definition nested (J H : nat) (grp : nat -> nat) (r : nat -> R) (inc : nat -> bool)
    (out : bool) (V : nat -> R) (j : nat) : R :=
  within_group J grp r inc V j * group_share J H grp r inc out V (grp j).

Definition all_goods : nat -> bool := fun _ => true.
