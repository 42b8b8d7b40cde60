(** The pure characteristics model, in which consumers choose an option with the highest utility, and changes of scale. *)
From Coq Require Import Reals List Bool Arith.
From Verif Require Import Base DemandModel SupplyModel.
Import ListNotations.
Local Open Scope R_scope.

(** The highest utility among products and the outside option, which has utility zero, how many options have it, and the probability
    of choosing a product when one of the best options is chosen at random. *)
Definition highest (J : nat) (V : nat -> R) : R := fold_right Rmax 0 (map V (seq 0 J)).
Definition is_highest (J : nat) (V : nat -> R) (v : R) : R := if Req_EM_T v (highest J V) then 1 else 0.
Definition how_many (J : nat) (V : nat -> R) : R := is_highest J V 0 + sumn J (fun k => is_highest J V (V k)).
Definition pure_choice (J : nat) (V : nat -> R) (j : nat) : R := is_highest J V (V j) / how_many J V.
(** Options that are not best are worse by some amount. *)
Definition gap (J : nat) (V : nat -> R) (g : R) : Prop :=
  (0 = highest J V \/ 0 <= highest J V - g) /\ forall k, (k < J)%nat -> V k = highest J V \/ V k <= highest J V - g.
(** Shares when everyone chooses in this way. *)
Definition pure_share (J : nat) (a : agents) (delta : nat -> R) (j : nat) : R :=
  sumn (aI a) (fun i => pure_choice J (fun k => delta k + amu a i k) j * aw a i).

(** The same market with another scale of idiosyncratic preferences. *)
Definition with_scale (e : R) (m : market) : market := mk_market (mJ m) (mH m) (gid m) (rho_multi m) (grho m) e.
Definition with_scale_full (e : R) (M : full_market) : full_market :=
  mk_full_market (with_scale e (fm M)) (fI M) (fw M) (fK1 M) (fX1 M) (fbeta M) (fK2 M) (fX2 M) (fcoef M) (var0 M) (delta0 M) (X2_0 M).
(** All preferences, systematic and idiosyncratic, are stronger by a factor. *)
Definition stronger (c : R) (M : full_market) : full_market :=
  mk_full_market (with_scale (c * eps_scale (fm M)) (fm M)) (fI M) (fw M) (fK1 M) (fX1 M) (fun k => c * fbeta M k) (fK2 M) (fX2 M)
    (fun k j i => c * fcoef M k j i) (var0 M) (fun j => c * delta0 M j) (X2_0 M).
(** Convergence as the scale goes to zero. *)
Definition tends_to (f : R -> R) (l : R) : Prop := forall err, 0 < err -> exists e0, 0 < e0 /\ forall e, 0 < e < e0 -> Rabs (f e - l) < err.
