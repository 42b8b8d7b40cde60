(** What theorems about changes in costs are about. *)
From Coq Require Import Reals ZArith List Bool Arith.
From Verif Require Import Base.
Local Open Scope R_scope.

(** Costs of products that are sold by the firm of product j are the same before and after. *)
Definition firm_unaffected (J : nat) (ids : list Z) (before after : nat -> R) (j : nat) : Prop :=
  forall k, (k < J)%nat -> nth k ids 0%Z = nth j ids 0%Z -> after k = before k.

(** Only costs of products that are sold by the firm of product j differ. *)
Definition only_firm_affected (J : nat) (ids : list Z) (before after : nat -> R) (j : nat) : Prop :=
  forall k, (k < J)%nat -> nth k ids 0%Z <> nth j ids 0%Z -> after k = before k.

(** The sum of a quantity over products that are sold by the firm of product j. *)
Definition firm_sum (J : nat) (ids : list Z) (j : nat) (x : nat -> R) : R :=
  sumn J (fun k => if Z.eqb (nth k ids 0%Z) (nth j ids 0%Z) then x k else 0).
