(** What the theorems about equilibrium prices assume, and what a merger is. *)
From Coq Require Import Reals ZArith List Bool Arith.
From Verif Require Import Base DemandModel DemandProofs SupplyModel.
Local Open Scope R_scope.

(** Plain logit demand in which prices are disliked by everyone alike: there are no nests and no random
    coefficients, columns of X1 that use prices are linear in them with the same slope for all
    products, and utilities fall by [a] per unit of price, in units of the Type I extreme value
    shocks. *)
Record plain_logit (M : full_market) (a : R) : Prop := {
  pl_valid : valid_market (fm M);
  pl_nests : mH (fm M) = O;
  pl_random : fK2 M = O;
  pl_weights : 0 < sumn (fI M) (fw M);
  pl_slopes : exists slope : nat -> R,
    (forall k j x y, (k < fK1 M)%nat -> uses (fX1 M k) = true -> (j < mJ (fm M))%nat ->
       ev (fX1 M k) j x - ev (fX1 M k) j y = slope k * (x - y) /\ dv1 (fX1 M k) j x = slope k) /\
    sumn (fK1 M) (fun k => if uses (fX1 M k) then fbeta M k * slope k else 0) = - (a * eps_scale (fm M));
  pl_dislike : 0 < a
}.

(** Firm IDs of J products after a merger: products of the same firm still are. *)
Definition merger (J : nat) (before after : list Z) : Prop :=
  forall j k, (j < J)%nat -> (k < J)%nat ->
    nth j before 0%Z = nth k before 0%Z -> nth j after 0%Z = nth k after 0%Z.

(** Convergence of every price. *)
Definition prices_converge (J : nat) (u : nat -> nat -> R) (p : nat -> R) : Prop :=
  forall j, (j < J)%nat -> Un_cv (fun n => u n j) (p j).
