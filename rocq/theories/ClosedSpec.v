(** Textbook formulas for logit and nested logit demand, in terms of market shares.  (Berry 1994; Train 2009, chapters 3 and 4.) *)
From Coq Require Import Reals ZArith Bool Arith.
From Verif Require Import Base DemandModel DemandProofs SupplyModel.
Local Open Scope R_scope.

(** Logit or nested logit demand: nobody has random coefficients, and utilities of all products fall by [a] per unit of price, in units
    of the idiosyncratic shocks. *)
Record common_tastes (M : full_market) (a : R) : Prop := {
  ct_valid : valid_market (fm M);
  ct_random : fK2 M = O;
  ct_weights : sumn (fI M) (fw M) = 1;
  ct_slope : forall j x, (j < mJ (fm M))%nat ->
    sumn (fK1 M) (fun k => if uses (fX1 M k) then fbeta M k * dv1 (fX1 M k) j x else 0) = - (a * eps_scale (fm M))
}.

(** The nesting parameter of a product, which is zero without nests, and products that are in the same nest. *)
Definition nesting (m : market) (j : nat) : R := if Nat.eqb (mH m) 0 then 0 else grho m (gid m j).
Definition together (m : market) (j k : nat) : bool := negb (Nat.eqb (mH m) 0) && Nat.eqb (gid m j) (gid m k).
(** The share of a nest, and of a product in its nest. *)
Definition nest_share (m : market) (s : nat -> R) (j : nat) : R := sumn (mJ m) (fun k => if together m j k then s k else 0).
Definition share_in_nest (m : market) (s : nat -> R) (j : nat) : R := s j / nest_share m s j.
Definition outside_share (m : market) (s : nat -> R) : R := 1 - sumn (mJ m) s.

(** The derivative of the share of j with respect to the price of k. *)
Definition share_slope (m : market) (a : R) (s : nat -> R) (j k : nat) : R :=
  if Nat.eqb j k then - (a / (1 - nesting m j)) * s j * (1 - nesting m j * share_in_nest m s j - (1 - nesting m j) * s j)
  else if together m j k then a * s k * (s j + nesting m j / (1 - nesting m j) * share_in_nest m s j)
  else a * s j * s k.

(** Ownership by firms. *)
Definition owned (firm : nat -> Z) (j k : nat) : R := if Z.eqb (firm j) (firm k) then 1 else 0.
(** Sums over products of a product's firm, and the share of its nest that its firm sells. *)
Definition firm_total (m : market) (firm : nat -> Z) (v : nat -> R) (j : nat) : R := sumn (mJ m) (fun k => if Z.eqb (firm j) (firm k) then v k else 0).
Definition firm_in_nest (m : market) (firm : nat -> Z) (s : nat -> R) (j : nat) : R :=
  sumn (mJ m) (fun k => if Z.eqb (firm j) (firm k) && together m j k then share_in_nest m s k else 0).
(** By how much nests lower the markup of a product. *)
Definition markup_factor (m : market) (firm : nat -> Z) (s : nat -> R) (j : nat) : R := (1 - nesting m j) / (1 - nesting m j * firm_in_nest m firm s j).
