(** Market shares with nesting, for claims about the speed of the contraction. *)
From Coq Require Import Reals Bool Arith.
From Verif Require Import Base DemandSpec.
Local Open Scope R_scope.

Section Shares.
  (** Numbers of products, groups and agents, groups of products, nesting parameters of groups, integration weights, mu, and
      mean utilities. *)
  Variables (J H I : nat) (grp : nat -> nat) (r : nat -> R) (w : nat -> R) (m : nat -> nat -> R) (x : nat -> R).
  Definition nest_chosen (i j : nat) : R := nested J H grp r all_goods true (fun k => x k + m i k) j.
  Definition nest_outside (i : nat) : R := 1 - sumn J (nest_chosen i).
  Definition nest_share (j : nat) : R := sumn I (fun i => w i * nest_chosen i j).
  (** How many agents would choose product j the first time and the outside option the second time if they chose twice. *)
  Definition nest_wavering (j : nat) : R := sumn I (fun i => w i * (nest_chosen i j * nest_outside i)).
End Shares.

(** The rate if the idiosyncratic preference term is scaled by e. *)
Definition scaled_rate (e rate : R) : R := 1 - (1 - rate) / e.
