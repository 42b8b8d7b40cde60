(** Model of consumer surplus in floating point arithmetic with rounding, overflow and underflow, as in RoundModel.
    Definitions only.

    Source: /repo/pyblp/markets/economy_results_market.py 398-461. *)
From Coq Require Import Reals List Bool Arith.
From Verif Require Import FltModel RoundModel.
Local Open Scope R_scope.

Section Surplus.
  Variable A : arithmetic.

  (** Line 454, given logarithms of scales and the sum of what is in parentheses. *)
  Definition numerator (log_scale total : flt) : flt := rsub A (rlog A (radd A (rexp A log_scale) total)) log_scale.

  (** Products, the order in which they are added up, those that are available to the agent and not eliminated, and
      [delta + mu] of the agent, divided by one minus nesting parameters if products are nested.  Lines 416-434. *)
  Variables (J : nat) (t : tree) (included : nat -> bool) (u : nat -> flt).

  (** Lines 437-438 and 454. *)
  Definition plain_numerator : flt := numerator (fneg (reduction J u)) (rsum A t (exp_utility A J included u true)).

  (** Lines 439-447 and 454, with H groups of products. *)
  Variables (H : nat) (group_tree : nat -> tree) (groups_tree : tree) (group_rho : nat -> R) (several : bool).
  Fixpoint min_rho (n : nat) : R :=
    match n with O => 0 | S n' => match n' with O => group_rho O | S _ => Rmin (min_rho n') (group_rho n') end end.
  Definition nested_log_scale : flt := rmul A (fneg (reduction J u)) (rsub A (Num 1) (Num (min_rho H))).
  Definition surplus_weight (h : nat) : flt :=
    if several then rexp A (rmul A (fneg (reduction J u)) (rsub A (Num (group_rho h)) (Num (min_rho H)))) else Num 1.
  Definition nested_numerator : flt :=
    numerator nested_log_scale
      (rsum A groups_tree (fun h => rmul A (surplus_weight h) (weighted_inclusive A J included u group_tree group_rho h))).
End Surplus.

(** Lines 455-460, given numerators and derivatives of agents [i].  Without [keep_all], surpluses are integrated. *)
Definition agent_surplus (A : arithmetic) (numerators derivatives : nat -> flt) (i : nat) : flt := rdiv A (numerators i) (derivatives i).
Definition market_surplus (A : arithmetic) (agents : tree) (numerators derivatives weights : nat -> flt) : flt :=
  rsum A agents (fun i => rmul A (agent_surplus A numerators derivatives i) (weights i)).
