(** Vocabulary for statements about demographics. *)
From Coq Require Import Reals List Bool Arith String.
From Verif Require Import Base FltModel DemogModel.
Import ListNotations.

Definition has (d : data) (name : string) : Prop := exists c, field d name = Some c.
(** The value of a variable for product j in row i: that of its own field if there is one, otherwise that of the field with
    index j. *)
Definition value (d : data) (j i : nat) (name : string) : flt :=
  match field d name with
  | Some c => c i
  | None => match field d (indexed name j) with Some c => c i | None => NaN end
  end.
(** Columns depend only on variables that the formulation names. *)
Definition well_formed (f : formulation) : Prop :=
  forall c, In c (columns f) -> forall v v' : string -> flt, (forall n, In n (names f) -> v n = v' n) -> c v = c v'.
(** Two outcomes are the same for agents of rows i < I and D columns. *)
Definition same_matrix (I K : nat) (m m' : matrix) : Prop := forall i k, (i < I)%nat -> (k < K)%nat -> m i k = m' i k.
(** The documented utility of agent i from product j: sum_k X2_jk f_k(sum_l Sigma_kl nu_il + sum_d Pi_kd d_ijd). *)
Definition documented_mu (K2 D : nat) (sigma pi nodes : nat -> nat -> R) (transform : nat -> R -> R) (X2 : nat -> nat -> R)
    (demographics : nat -> nat -> nat -> R) (i j : nat) : R :=
  (sumn K2 (fun k => X2 j k * transform k (sumn K2 (fun l => sigma k l * nodes i l) + sumn D (fun d => pi k d * demographics i d j))))%R.
