(** What half-vectors and vectors are. *)
From Coq Require Import Reals List Bool Arith.
From Verif Require Import Base AlgebraModel.
Import ListNotations.
Local Open Scope nat_scope.

(** Columns below and including the diagonal, one after the other. *)
Fixpoint lower_columns (n : nat) (A : mat) (columns : list nat) : list R :=
  match columns with
  | [] => []
  | j :: rest => map (fun i => A i j) (seq j (n - j)) ++ lower_columns n A rest
  end.
Definition half_vector (n : nat) (A : mat) : list R := lower_columns n A (seq 0 n).
Definition at_ (l : list R) : nat -> R := fun u => nth u l 0%R.

Definition symmetric (n : nat) (A : mat) : Prop := forall i j, i < n -> j < n -> A i j = A j i.
Definition lower_triangular (n : nat) (A : mat) : Prop := forall i j, i < n -> j < n -> i < j -> A i j = 0%R.
Definition same (n m : nat) (A B : mat) : Prop := forall i j, i < n -> j < m -> A i j = B i j.

(** [P] (m x n) is the Moore-Penrose inverse of [A] (n x m). *)
Definition pseudo_inverse (n m : nat) (A P : mat) : Prop :=
  same n m (mm n (mm m A P) A) A /\ same m n (mm m (mm n P A) P) P /\
  same n n (tr (mm m A P)) (mm m A P) /\ same m m (tr (mm n P A)) (mm n P A).

(** [sigma @ sigma.T]. *)
Definition squared (n : nat) (sigma : mat) : mat := mm n sigma (tr sigma).
Definition moved (sigma H : mat) (t : R) : mat := fun i j => (sigma i j + t * H i j)%R.
