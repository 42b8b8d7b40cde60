(** What it means to measure prices or characteristics in other units, independently of what is computed from them. *)
From Coq Require Import Reals List Bool Arith.
From Verif Require Import Base FltModel DemandModel SupplyModel DerivModel.
Import ListNotations.
Local Open Scope R_scope.

(** The same market with prices that are c times as large: utilities are the same at the same prices, and an additional
    unit of the new currency is worth 1 / c as much. *)
Definition other_currency (c : R) (M M' : full_market) : Prop :=
  fm M' = fm M /\ fI M' = fI M /\ fw M' = fw M /\
  (forall j, var0 M' j = c * var0 M j) /\
  (forall x j, update_delta M' (fun k => c * x k) j = update_delta M x j) /\
  (forall x i j, update_mu M' (fun k => c * x k) i j = update_mu M x i j) /\
  (forall x i j, utility_derivatives M' false (fun k => c * x k) i j = utility_derivatives M false x i j / c).

(** A vector in the other currency. *)
Definition convert (c : R) (x : fvec) : fvec := map (fmul (Num c)) x.

(** A column that is prices times a characteristic, or that does not depend on prices. *)
Definition times_prices (z : nat -> R) : column := mk_column true (fun j x => z j * x) (fun j _ => z j) (fun _ _ => 0).
Definition linear_in_prices (col : column) : Prop := uses col = false \/ exists z, col = times_prices z.

(** Prices are in the other currency, and coefficients on columns with prices are adjusted; other data are kept. *)
Definition adjusted (c : R) (M : full_market) : full_market :=
  mk_full_market (fm M) (fI M) (fw M) (fK1 M) (fX1 M) (fun k => if uses (fX1 M k) then fbeta M k / c else fbeta M k)
    (fK2 M) (fX2 M) (fun k j i => if uses (fX2 M k) then fcoef M k j i / c else fcoef M k j i)
    (fun j => c * var0 M j) (delta0 M) (X2_0 M).

(** A characteristic with random coefficients is measured in other units, u k for column k, and its row of parameters is adjusted. *)
Definition other_units (u : nat -> R) (t : tastes) : tastes :=
  mk_tastes (r_K2 t) (r_D t) (r_types t) (r_nodes t) (r_dem t) (fun j k => u k * r_X2 t j k).
