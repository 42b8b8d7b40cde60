(** Specification of sorting and grouping, independent of the model of the code. *)
From Coq Require Import Reals ZArith List Bool Arith Permutation Sorted.
Import ListNotations.

(** The positions at which an ID appears, in increasing order. *)
Definition rows_of (ids : list Z) (t : Z) : list nat :=
  filter (fun j => Z.eqb (nth j ids 0%Z) t) (seq 0 (length ids)).

(** p is some argsort of ids: a permutation of the positions along which IDs do not decrease. *)
Definition is_argsort (ids : list Z) (p : list nat) : Prop :=
  Permutation p (seq 0 (length ids)) /\
  StronglySorted (fun i j => (nth i ids 0 <= nth j ids 0)%Z) p.

(** p is the stable argsort: ties are in order of position. *)
Definition is_stable_argsort (ids : list Z) (p : list nat) : Prop :=
  Permutation p (seq 0 (length ids)) /\
  StronglySorted (fun i j => (nth i ids 0 < nth j ids 0)%Z \/
                             (nth i ids 0 = nth j ids 0)%Z /\ (i < j)%nat) p.

(** The sum over rows. *)
Definition sum_rows (x : nat -> R) (rows : list nat) : R := fold_right (fun j acc => (x j + acc)%R) 0%R rows.

(** The distinct IDs in increasing order. *)
Definition sorted_distinct (ids u : list Z) : Prop :=
  StronglySorted Z.lt u /\ forall t, In t u <-> In t ids.

(** The quadratic function with constant c, linear coefficients b and quadratic coefficients A. *)
Fixpoint sum_below (n : nat) (f : nat -> R) : R :=
  match n with O => 0%R | S m => (sum_below m f + f m)%R end.
Definition quadratic (n : nat) (c : R) (b : nat -> R) (A : nat -> nat -> R) (x : nat -> R) : R :=
  (c + sum_below n (fun i => b i * x i) + sum_below n (fun i => sum_below n (fun j => A i j * x i * x j)))%R.
(** Its gradient and Hessian. *)
Definition quadratic_gradient (n : nat) (b : nat -> R) (A : nat -> nat -> R) (x : nat -> R) (i : nat) : R :=
  (b i + sum_below n (fun j => (A i j + A j i) * x j))%R.
Definition quadratic_hessian (A : nat -> nat -> R) (i j : nat) : R := (A i j + A j i)%R.
