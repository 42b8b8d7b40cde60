(** What users of moments in innovations rely on. *)
From Coq Require Import Reals List Bool Arith.
From Verif Require Import Base DiffModel SimSpec.
Import ListNotations.
Local Open Scope nat_scope.

(** Errors of both sides: innovations of [errors] in period [r] and side [c]. *)
Definition innovation (lag : nat -> nat) (phi : nat -> nat -> R) (errors : nat -> nat -> R) (c r : nat) : R :=
  (errors r c - (phi c 0%nat * errors (lag r) 0%nat + phi c 1%nat * errors (lag r) 1%nat))%R.

(** The error in moments of a type: the error itself, its innovation, or the change of its innovation; zero
    in periods without enough lags. *)
Definition moment_error (lag : nat -> nat) (phi errors : nat -> nat -> R) (ty : moment_type) (c r : nat) (u : R) : Prop :=
  match ty with
  | Levels => u = errors r c
  | Innovations => (lag r = r -> u = 0%R) /\ (lag r <> r -> u = innovation lag phi errors c r)
  | Differenced => (lag r = r \/ lag (lag r) = lag r -> u = 0%R) /\
                   (lag r <> r -> lag (lag r) <> lag r ->
                    u = (innovation lag phi errors c r - innovation lag phi errors c (lag r))%R)
  end.

(** [A] is a right inverse of the K x K matrix [B]. *)
Definition inverse_of (K : nat) (B A : nat -> nat -> R) : Prop :=
  (forall k l, k < K -> l < K -> sumn K (fun j => B k j * A j l)%R = if Nat.eqb k l then 1%R else 0%R).

Definition symmetric_weights (M : nat) (W : nat -> nat -> R) : Prop := forall i j, i < M -> j < M -> W i j = W j i.

(** Derivatives along one parameter: of delta and costs, and of phi, which contains the parameter at most
    once. *)
Definition phi_derivative (at_phi : option (nat * nat)) (i j : nat) : R :=
  match at_phi with
  | Some (a, b) => if (Nat.eqb i a && Nat.eqb j b)%bool then 1%R else 0%R
  | None => 0%R
  end.
