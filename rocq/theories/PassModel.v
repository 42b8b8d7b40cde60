(** Model of the pass-through matrix.  Definitions only. *)
From Coq Require Import Reals List Bool Arith.
From Verif Require Import Base DemandModel SupplyModel DerivModel.
Local Open Scope R_scope.

(** [approximately_invert] (utilities/algebra.py 107-145): a matrix and whether it is a replacement. *)
Definition inverter := (nat -> nat -> R) -> (nat -> nat -> R) * bool.

(** Matrix products of J by J arrays. *)
Definition matmul (J : nat) (A B : nat -> nat -> R) (a c : nat) : R := sumn J (fun b => A a b * B b c).
Definition matvec (J : nat) (A : nat -> nat -> R) (x : nat -> R) (a : nat) : R := sumn J (fun b => A a b * x b).

(** [safely_compute_passthrough].  economy_results_market.py 255-300.  [observed] are
    [self.products.shares], [ownership] is [get_ownership_matrix], prices are var0. *)
Definition passthrough_capital_delta (M : full_market) (ownership : nat -> nat -> R) (j k : nat) : R :=
  - ownership j k * shares_jacobian M (var0 M) j k.
Definition passthrough_capital_delta_derivatives (M : full_market) (ownership : nat -> nat -> R) (l j k : nat) : R :=
  - ownership j k * shares_hessian M (var0 M) j k l.
Definition passthrough_inverse (M : full_market) (ownership inv : nat -> nat -> R) (observed : nat -> R)
    (a l : nat) : R :=
  let J := mJ (fm M) in
  matvec J (matmul J (matmul J inv (passthrough_capital_delta_derivatives M ownership l)) inv) observed a
  + ((if Nat.eqb a l then 1 else 0) - matmul J inv (shares_jacobian M (var0 M)) a l).

Record passthrough_result := mk_passthrough {
  pt_matrix : nat -> nat -> R;
  pt_intra_firm_error : bool;
  pt_inversion_error : bool
}.
Definition compute_passthrough (invert : inverter) (M : full_market) (ownership : nat -> nat -> R)
    (observed : nat -> R) : passthrough_result :=
  let (inv, bad1) := invert (passthrough_capital_delta M ownership) in
  let (pt, bad2) := invert (passthrough_inverse M ownership inv observed) in
  mk_passthrough pt bad1 bad2.
