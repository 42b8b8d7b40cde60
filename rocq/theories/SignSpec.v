(** Signs of columns of sigma. *)
From Coq Require Import Reals List Bool Arith.
From Verif Require Import Base OrderSpec.
Import ListNotations.
Local Open Scope R_scope.

(** A vector and a matrix with the opposite sign in a dimension. *)
Definition flip (c : nat) (v : nat -> R) (c' : nat) : R := if Nat.eqb c' c then - v c' else v c'.
Definition flip_column (c : nat) (sigma : nat -> nat -> R) (k : nat) : nat -> R := flip c (sigma k).
(** Element (k, l) of sigma times its transpose. *)
Definition sigma_squared (K : nat) (sigma : nat -> nat -> R) (k l : nat) : R := sumn K (fun c => sigma k c * sigma l c).

(** Agents whose nodes are distributed symmetrically in a dimension, given other nodes and demographics. *)
Definition symmetric_agents (I : nat) (w : nat -> R) (nodes : nat -> nat -> R) (dem : nat -> nat -> nat -> R) (c : nat) : Prop :=
  same_distribution I w (fun i => (nodes i, dem i)) I w (fun i => (flip c (nodes i), dem i)).

(** Nodes and weights of agents, from lists. *)
Definition node_of (nodes : list (list R)) (i c : nat) : R := nth c (nth i nodes []) 0.
Definition weight_of (weights : list R) (i : nat) : R := nth i weights 0.
