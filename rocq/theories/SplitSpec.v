(** What it means for products to be split into identical copies, independently of what is computed from them. *)
From Coq Require Import Reals List Bool Arith.
From Verif Require Import Base DemandModel SupplyModel.
Local Open Scope R_scope.

(** Product k of the J' new ones is a copy of product [h k] of the J old ones, and is the part [f k] of it. *)
Record divides (J J' : nat) (h : nat -> nat) (f : nat -> R) : Prop := {
  dv_copy : forall k, (k < J')%nat -> (h k < J)%nat;
  dv_part : forall k, (k < J')%nat -> 0 < f k;
  dv_whole : forall j, (j < J)%nat -> sumn J' (fun k => if Nat.eqb (h k) j then f k else 0) = 1
}.

(** Copies are in the nests of what they are copies of. *)
Definition split_market (J' : nat) (h : nat -> nat) (m : market) : market :=
  mk_market J' (mH m) (fun k => gid m (h k)) (rho_multi m) (grho m) (eps_scale m).
Definition split_agents (h : nat -> nat) (a : agents) : agents :=
  mk_agents (aI a) (aw a) (fun i k => amu a i (h k)).

(** How much less the part f of product j is worth than all of it. *)
Definition dilution (m : market) (j : nat) (f : R) : R :=
  eps_scale m * (if Nat.eqb (mH m) 0 then 1 else 1 - grho m (gid m j)) * ln f.
Definition split_delta (m : market) (h : nat -> nat) (f delta : nat -> R) (k : nat) : R :=
  delta (h k) + dilution m (h k) (f k).

Definition split_column (h : nat -> nat) (c : column) : column :=
  mk_column (uses c) (fun k => ev c (h k)) (fun k => dv1 c (h k)) (fun k => dv2 c (h k)).
Definition split_full (J' : nat) (h : nat -> nat) (f : nat -> R) (M : full_market) : full_market :=
  mk_full_market (split_market J' h (fm M)) (fI M) (fw M) (fK1 M) (fun k => split_column h (fX1 M k)) (fbeta M)
    (fK2 M) (fun k => split_column h (fX2 M k)) (fun k j i => fcoef M k (h j) i)
    (fun k => var0 M (h k)) (split_delta (fm M) h f (delta0 M)) (fun j k => X2_0 M (h j) k).

(** The same restriction of choices for all copies of a product. *)
Definition split_choice (h : nat -> nat) (c : choice) : choice :=
  mk_choice (c_eliminate_outside c) (option_map (fun a k => a (h k)) (c_availability c)) None
    (Some (fun k => match c_eliminate c with Some j => Nat.eqb (h k) j | None => false end ||
                    match c_eliminate_ids c with Some b => b (h k) | None => false end)).

(** How many copies there are of product j. *)
Definition copies (J' : nat) (h : nat -> nat) (j : nat) : R := sumn J' (fun k => if Nat.eqb (h k) j then 1 else 0).
