(** What pass-through means: how equilibrium prices respond to marginal costs.  Independent of the
    model of the code. *)
From Coq Require Import Reals List Bool Arith.
From Verif Require Import Base SupplySpec.
Local Open Scope R_scope.

(** A path of costs and prices along which prices stay in equilibrium near t, and its velocities. *)
Record equilibrium_path (J : nat) (O : nat -> nat -> R) (s : (nat -> R) -> nat -> R)
    (p c : R -> nat -> R) (t : R) (dp dc : nat -> R) : Prop := {
  ep_prices : forall j, (j < J)%nat -> derivable_pt_lim (fun y => p y j) t (dp j);
  ep_costs : forall j, (j < J)%nat -> derivable_pt_lim (fun y => c y j) t (dc j);
  ep_equilibrium : exists e, 0 < e /\ forall y, Rabs (y - t) < e -> bertrand J O (c y) s (p y)
}.

(** A matrix that sends the velocity of costs to that of prices along every such path through p0. *)
Definition is_passthrough (J : nat) (O : nat -> nat -> R) (s : (nat -> R) -> nat -> R) (p0 : nat -> R)
    (Y : nat -> nat -> R) : Prop :=
  forall p c t dp dc, equilibrium_path J O s p c t dp dc -> p t = p0 ->
    forall j, (j < J)%nat -> dp j = sumn J (fun k => Y j k * dc k).
