(** Competition of firms that each sell in one nest. *)
From Coq Require Import Reals ZArith Bool Arith.
From Verif Require Import Base DemandModel DemandProofs SupplyModel SupplyProofs ClosedSpec.
Local Open Scope R_scope.

(** Nested logit demand as it is usually specified: everyone dislikes prices, derivatives of characteristics are right, and nesting
    parameters are not negative.  There may be no nests. *)
Record nested_demand (M : full_market) (a : R) : Prop := {
  nd_tastes : common_tastes M a;
  nd_positive : 0 < a;
  nd_columns : forall x, good_columns M x;
  nd_nesting : forall j, (j < mJ (fm M))%nat -> 0 <= nesting (fm M) j
}.

(** Firms sell in one nest each.  (For example, they have one product, or there are no nests.) *)
Definition one_nest (m : market) (firm : nat -> Z) : Prop :=
  forall j k, (j < mJ m)%nat -> (k < mJ m)%nat -> firm j = firm k -> mH m = O \/ gid m j = gid m k.
(** Some firms merge. *)
Definition merges (J : nat) (before after : nat -> Z) : Prop :=
  forall j k, (j < J)%nat -> (k < J)%nat -> before j = before k -> after j = after k.
(** The firm of a product acquires another product. *)
Definition acquires (J : nat) (before after : nat -> Z) (j : nat) : Prop :=
  exists k, (k < J)%nat /\ before j <> before k /\ after j = after k.
(** Costs of all products of a firm change by the same amount. *)
Definition same_change (J : nat) (firm : nat -> Z) (costs costs' : nat -> R) : Prop :=
  forall j k, (j < J)%nat -> (k < J)%nat -> firm j = firm k -> costs' j - costs j = costs' k - costs k.
