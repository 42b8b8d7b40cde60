(** Vocabulary for statements about objective evaluations. *)
From Coq Require Import Reals List Bool Arith.
From Verif Require Import Base FltModel ProgressModel.
Import ListNotations.

Definition finite (x : flt) : Prop := exists r, x = Num r.
Definition all_finite (l : list flt) : Prop := forall x, In x l -> finite x.

(** Elements that were finite are untouched, and others have been replaced by last values. *)
Definition reverted (last raw new : list flt) : Prop :=
  length new = length raw /\
  forall n, n < length raw ->
    (finite (nth n raw NaN) -> nth n new NaN = nth n raw NaN) /\
    (~ finite (nth n raw NaN) -> nth n new NaN = nth n last NaN).

(** First-order optimality under bounds: no feasible direction decreases the objective to first order. *)
Definition in_box (P : nat) (lb ub : nat -> flt) (x : nat -> R) : Prop :=
  forall p, p < P -> fleb (lb p) (Num (x p)) = true /\ fleb (Num (x p)) (ub p) = true.
Definition first_order_optimal (P : nat) (lb ub : nat -> flt) (theta g : nat -> R) : Prop :=
  forall x, in_box P lb ub x -> (0 <= sumn P (fun p => g p * (x p - theta p)))%R.

(** Numbers of elements of arrays: delta, micro moments, costs, Jacobians and the gradient. *)
Record shapes := { n_delta : nat; n_micro : nat; n_costs : nat; n_xi : nat; n_micro_jacobian : nat; n_omega : nat; n_theta : nat }.
Definition has_shapes (p : progress) (s : shapes) : Prop :=
  length (delta p) = n_delta s /\ length (micro p) = n_micro s /\ length (tilde_costs p) = n_costs s /\
  length (xi_jacobian p) = n_xi s /\ length (micro_jacobian p) = n_micro_jacobian s /\ length (omega_jacobian p) = n_omega s /\
  length (gradient p) = n_theta s.
Definition computes_shapes {Theta} (c : computation Theta) (s : shapes) : Prop :=
  (forall theta, length (logit_delta c theta) = n_delta s) /\
  (forall theta d, length (fst (fixed_point c theta d)) = n_delta s) /\
  (if micro_moments c then forall theta d, length (fst (micro_values c theta d)) = n_micro s else n_micro s = 0) /\
  (if supply c then forall theta d, length (fst (costs c theta d)) = n_costs s else n_costs s = 0) /\
  (forall theta d, length (fst (xi_by_theta c theta d)) = n_xi s) /\
  (micro_moments c = true -> forall theta d, length (fst (micro_by_theta c theta d)) = n_micro_jacobian s) /\
  (supply c = true -> forall theta d k, length (fst (omega_by_theta c theta d k)) = n_omega s) /\
  (forall theta d k m jx jo jm, length (gmm_gradient c theta d k m jx jo jm) = n_theta s).

(** Delta, costs and micro moments are finite. *)
Definition finite_quantities (p : progress) : Prop := all_finite (delta p) /\ all_finite (micro p) /\ all_finite (tilde_costs p).
(** Jacobians and the gradient are finite too. *)
Definition finite_derivatives {Theta} (c : computation Theta) (p : progress) : Prop :=
  all_finite (xi_jacobian p) /\ all_finite (micro_jacobian p) /\ (supply c = true -> all_finite (omega_jacobian p)) /\
  all_finite (gradient p).

(** What an evaluation reports, other than where its objective is stored. *)
Definition same_reports (p q : progress) : Prop :=
  delta p = delta q /\ micro p = micro q /\ tilde_costs p = tilde_costs q /\ xi_jacobian p = xi_jacobian q /\
  micro_jacobian p = micro_jacobian q /\ omega_jacobian p = omega_jacobian q /\ gradient p = gradient q /\ errors p = errors q.

(** A is the right inverse of a K by K matrix. *)
Definition inverts (K : nat) (B A : nat -> nat -> R) : Prop :=
  forall k l, k < K -> l < K -> sumn K (fun m => B k m * A m l)%R = if Nat.eqb k l then 1%R else 0%R.

(** Markets, fixed effect absorption and the IV regression record errors of their own only. *)
Definition other (l : list error) : Prop := forall e, In e l -> exists n, e = OtherError n.
Definition only_other {Theta} (c : computation Theta) : Prop :=
  (forall theta d, other (snd (fixed_point c theta d))) /\
  (forall theta d, other (snd (micro_values c theta d))) /\
  (forall theta d, other (snd (xi_by_theta c theta d))) /\
  (forall theta d, other (snd (micro_by_theta c theta d))) /\
  (forall theta d, other (snd (costs c theta d))) /\
  (forall theta d k, other (snd (omega_by_theta c theta d k))) /\
  (forall theta d k m, other (snd (gmm_objective c theta d k m))).

(** There is exactly one error e if some element is not finite, and none otherwise. *)
Definition recorded (e : error) (errs : list error) (values : list flt) : Prop :=
  (all_finite values -> ~ In e errs) /\ (~ all_finite values -> count_occ error_eq_dec errs e = 1).
