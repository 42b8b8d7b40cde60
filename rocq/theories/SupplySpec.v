(** Specification of Bertrand pricing, written from docs/background.rst ("Supply") and the docstrings
    of EconomyResults, independent of the model of the code. *)
From Coq Require Import Reals List Bool Arith.
From Verif Require Import Base.
Local Open Scope R_scope.

(** What the firm that sets the price of product j cares about: profits on every product k, weighted
    by ownership (one for its own products, zero for other firms', anything under cooperation). *)
Definition weighted_profit (J : nat) (O : nat -> nat -> R) (costs : nat -> R)
    (s : (nat -> R) -> nat -> R) (p : nat -> R) (j : nat) : R :=
  sumn J (fun k => O j k * (p k - costs k) * s p k).

(** Every price is a stationary point of its owner's profit. *)
Definition bertrand (J : nat) (O : nat -> nat -> R) (costs : nat -> R)
    (s : (nat -> R) -> nat -> R) (p : nat -> R) : Prop :=
  forall j, (j < J)%nat ->
    derivable_pt_lim (fun t => weighted_profit J O costs s (upd p j t) j) (p j) 0.

(** The documented markup equation, s = Delta (p - c) with Delta = - O * (ds/dp)':
    [D] holds the derivatives, D j k = ds_j / dp_k. *)
Definition is_jacobian (J : nat) (s : (nat -> R) -> nat -> R) (p : nat -> R) (D : nat -> nat -> R) : Prop :=
  forall j k, (j < J)%nat -> (k < J)%nat -> derivable_pt_lim (fun t => s (upd p k t) j) (p k) (D j k).

Definition markup_equation (J : nat) (O D : nat -> nat -> R) (s markup : nat -> R) : Prop :=
  forall j, (j < J)%nat -> s j + sumn J (fun k => O j k * D k j * markup k) = 0.

(** Documented diversion ratios: minus ds_k/dx_j over ds_j/dx_j; on the diagonal, minus ds_0/dx_j
    over ds_j/dx_j, with s_0 one minus the sum of inside shares. *)
Definition diversion (J : nat) (D : nat -> nat -> R) (j k : nat) : R :=
  if Nat.eqb j k then - (- sumn J (fun i => D i j)) / D j j else - D k j / D j j.
