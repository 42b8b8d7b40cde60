(** Where demographics and integration nodes are measured from. *)
From Coq Require Import Reals List Bool Arith.
From Verif Require Import Base FltModel DemandModel SupplyModel DerivModel.
Import ListNotations.
Local Open Scope R_scope.

(** A number is added to each dimension of nodes, and to each demographic (which may differ by product). *)
Definition recentered (e : nat -> R) (c : nat -> nat -> R) (T : tastes) : tastes :=
  mk_tastes (r_K2 T) (r_D T) (r_types T) (fun i l => r_nodes T i l + e l) (fun i d j => r_dem T i d j + c d j) (r_X2 T).
(** By how much this changes the random coefficient on a characteristic, and utilities, for everyone. *)
Definition common_change (T : tastes) (sigma pi : nat -> nat -> R) (e : nat -> R) (c : nat -> nat -> R) (k j : nat) : R :=
  sumn (r_K2 T) (fun l => sigma k l * e l) + sumn (r_D T) (fun d => pi k d * c d j).
Definition common_utility (T : tastes) (sigma pi : nat -> nat -> R) (e : nat -> R) (c : nat -> nat -> R) (j : nat) : R :=
  sumn (r_K2 T) (fun k => r_X2 T j k * common_change T sigma pi e c k j).

(** A vector from which numbers are subtracted. *)
Definition lowered (v : nat -> R) (x : fvec) : fvec := map (fun jx => fsub (snd jx) (Num (v (fst jx)))) (combine (seq 0 (length x)) x).

(** Markets that differ only in how utilities are divided into mean utilities and what is specific to agents. *)
Definition same_utilities (M M' : full_market) : Prop :=
  fm M' = fm M /\ fI M' = fI M /\ fw M' = fw M /\ var0 M' = var0 M /\
  (forall x i j, update_delta M' x j + update_mu M' x i j = update_delta M x j + update_mu M x i j) /\
  (forall second x i j, utility_derivatives M' second x i j = utility_derivatives M second x i j).

(** The coefficient of everyone on characteristic k is larger by a k, and the linear parameter on the same
    characteristic, which is column q k of X1, is smaller; mean utilities change accordingly. *)
Definition compensated (a : nat -> R) (q : nat -> nat) (M : full_market) : full_market :=
  mk_full_market (fm M) (fI M) (fw M) (fK1 M) (fX1 M)
    (fun k1 => fbeta M k1 - sumn (fK2 M) (fun k => if Nat.eqb (q k) k1 then a k else 0))
    (fK2 M) (fX2 M) (fun k j i => fcoef M k j i + a k) (var0 M)
    (fun j => delta0 M j - sumn (fK2 M) (fun k => (if uses (fX2 M k) then ev (fX2 M k) j (var0 M j) else X2_0 M j k) * a k)) (X2_0 M).
