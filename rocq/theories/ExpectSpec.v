(** What it means for data to be explained by structural errors, and conditions on a market's data. *)
From Coq Require Import Reals List Bool Arith.
From Verif Require Import Base DemandModel SupplyModel DerivModel GradModel EndoModel.
Local Open Scope R_scope.

(** Each y is a linear combination of characteristics plus its structural error. *)
Definition explained (J K : nat) (X : nat -> nat -> R) (coefficients errors y : nat -> R) : Prop :=
  forall j, (j < J)%nat -> y j = sumn K (fun k => X j k * coefficients k) + errors j.

(** Characteristics at given prices or shares. *)
Definition characteristics (X : nat -> column) (x : nat -> R) (j k : nat) : R := ev (X k) j (x j).

(** Everyone dislikes higher prices in a market, and ownership is symmetric and between zero and one, with ones on the diagonal. *)
Record competition (M : full_market) (O : nat -> nat -> R) (x : nat -> R) : Prop := {
  comp_agents : (0 < fI M)%nat /\ forall i, (i < fI M)%nat -> 0 < fw M i;
  comp_prices : forall i j, (i < fI M)%nat -> (j < mJ (fm M))%nat -> utility_derivatives M false x i j < 0;
  comp_rho : mH (fm M) <> 0%nat -> forall h, (h < mH (fm M))%nat -> 0 <= grho (fm M) h;
  comp_own : forall j, (j < mJ (fm M))%nat -> O j j = 1;
  comp_cross : forall j k, (j < mJ (fm M))%nat -> (k < mJ (fm M))%nat -> 0 <= O j k <= 1 /\ O j k = O k j
}.

(** x is a fixed point. *)
Definition fixed (J : nat) (f : (nat -> R) -> nat -> R) (x : nat -> R) : Prop := forall j, (j < J)%nat -> f x j = x j.
