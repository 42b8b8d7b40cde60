(** Models that are special cases of others. *)
From Coq Require Import Reals Arith.
From Verif Require Import Base DemandModel SupplyModel.
Local Open Scope R_scope.

(** Nests that should not matter: those with a zero nesting parameter and those with one product. *)
Definition idle_nests (m : market) : Prop :=
  forall j k, (j < mJ m)%nat -> (k < mJ m)%nat -> gid m j = gid m k -> j = k \/ grho m (gid m j) = 0.

(** The same market without nests. *)
Definition without_nests (m : market) : market := mk_market (mJ m) 0 (fun _ => O) false (fun _ => 0) (eps_scale m).
Definition full_without_nests (M : full_market) : full_market :=
  mk_full_market (without_nests (fm M)) (fI M) (fw M) (fK1 M) (fX1 M) (fbeta M) (fK2 M) (fX2 M) (fcoef M) (var0 M) (delta0 M) (X2_0 M).

(** Agents who are all alike. *)
Definition alike_agents (a : agents) (J : nat) (mu : nat -> R) : Prop := forall i j, (i < aI a)%nat -> (j < J)%nat -> amu a i j = mu j.

(** The same market where errors have unit scale. *)
Definition unit_scale (m : market) : market := mk_market (mJ m) (mH m) (gid m) (rho_multi m) (grho m) 1.
