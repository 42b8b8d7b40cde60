(** Polynomials of several variables and their expectations when variables are independent and standard normal. *)
From Coq Require Import Reals List Bool Arith.
From Verif Require Import Base IntegModel IntegSpec.
Import ListNotations.
Local Open Scope R_scope.

(** Monomials, and their expectations. *)
Definition monomial (ks : list nat) (x : list R) : R := product_of (map (fun k a => a ^ k) ks) x.
Definition normal_monomial (ks : list nat) : R := fold_right Rmult 1 (map normal_moment ks).
Definition degree (ks : list nat) : nat := fold_right plus 0%nat ks.
(** Polynomials are lists of coefficients and exponents. *)
Definition polynomial := list (R * list nat).
Definition polynomial_at (p : polynomial) (x : list R) : R := suml (fun m => fst m * monomial (snd m) x) p.
Definition normal_expectation (p : polynomial) : R := suml (fun m => fst m * normal_monomial (snd m)) p.
Definition polynomial_in (d bound : nat) (p : polynomial) : Prop := forall m, In m p -> length (snd m) = d /\ (degree (snd m) < bound)%nat.

(** Rules up to a level have the moments of the standard normal distribution up to twice their levels, up to relative errors. *)
Definition moment_of (t : quadrature_tables) (level k : nat) : R := univariate (whole (half t level)) (fun a => a ^ k).
Definition accurate_rules (t : quadrature_tables) (level : nat) (eps : R) : Prop :=
  forall l k, (1 <= l <= level)%nat -> (k < 2 * l)%nat -> Rabs (moment_of t l k - normal_moment k) <= eps * normal_moment k.
Definition exact_rules (t : quadrature_tables) (level : nat) : Prop := accurate_rules t level 0.
(** How much a moment varies with the level until it is accurate. *)
Definition variation (t : quadrature_tables) (k : nat) : R :=
  Rabs (moment_of t 1 k) + sumn (Nat.div k 2) (fun l => Rabs (moment_of t (l + 2) k - moment_of t (l + 1) k)).
(** How much errors of rules amount to in products: variations and errors by dimension. *)
Fixpoint amplified (bounds errors : list R) : R :=
  match bounds, errors with
  | a :: bounds, e :: errors => (a + e) * amplified bounds errors
  | _, _ => 1
  end.
Definition error_bound (t : quadrature_tables) (level : nat) (eps : R) (ks : list nat) : R :=
  amplified (map (variation t) ks) (map (fun k => INR (2 * level - 1) * eps * normal_moment k) ks) -
  fold_right Rmult 1 (map (variation t) ks).

(** Coordinates of nodes, and tastes of agents: rows of sigma times nodes. *)
Definition coordinate (i : nat) (x : list R) : R := nth i x 0.
Definition taste (d : nat) (sigma : nat -> nat -> R) (i : nat) (x : list R) : R := sumn d (fun k => sigma i k * coordinate k x).
