(** What a Nash equilibrium in prices is. *)
From Coq Require Import Reals ZArith List Bool Arith.
From Verif Require Import Base.
Local Open Scope R_scope.

(** Variable profits of a firm at prices p. *)
Definition firm_profit (J : nat) (ids : list Z) (costs : nat -> R) (s : (nat -> R) -> nat -> R) (f : Z) (p : nat -> R) : R :=
  sumn J (fun k => if Z.eqb (nth k ids 0%Z) f then (p k - costs k) * s p k else 0).
(** Prices q that differ from p only for products of firm f. *)
Definition deviation (J : nat) (ids : list Z) (f : Z) (p q : nat -> R) : Prop :=
  forall k, (k < J)%nat -> nth k ids 0%Z <> f -> q k = p k.
(** No firm can gain by choosing any other prices for its products. *)
Definition nash (J : nat) (ids : list Z) (costs : nat -> R) (s : (nat -> R) -> nat -> R) (p : nat -> R) : Prop :=
  forall f q, deviation J ids f p q -> firm_profit J ids costs s f q <= firm_profit J ids costs s f p.
(** The same, and every other choice is worse. *)
Definition strict_nash (J : nat) (ids : list Z) (costs : nat -> R) (s : (nat -> R) -> nat -> R) (p : nat -> R) : Prop :=
  nash J ids costs s p /\
  forall f q, deviation J ids f p q -> firm_profit J ids costs s f q = firm_profit J ids costs s f p -> forall k, (k < J)%nat -> q k = p k.
(** No firm can gain by choosing other prices for its products that are close to its current prices. *)
Definition local_nash (J : nat) (ids : list Z) (costs : nat -> R) (s : (nat -> R) -> nat -> R) (p : nat -> R) : Prop :=
  exists eps, 0 < eps /\ forall f q, deviation J ids f p q -> (forall k, (k < J)%nat -> Rabs (q k - p k) < eps) ->
  firm_profit J ids costs s f q <= firm_profit J ids costs s f p.
