(** Specification for replacing prices and shares in all markets, independent of how results are put together. *)
From Coq Require Import Reals ZArith List Bool Arith Permutation.
From Verif Require Import Base BasicsSpec SchedSpec DemandModel SupplyModel EndoModel ReplaceModel.
Import ListNotations.
Local Open Scope nat_scope.

(** Markets have as many products as rows with their ID. *)
Definition consistent (S : simulation) : Prop :=
  is_stable_argsort (s_ids S) (s_argsort S) /\ (forall t, In t (s_ids S) -> mJ (fm (s_market S t)) = length (rows_of (s_ids S) t)).
(** Each market arrives once. *)
Definition arrivals (S : simulation) (order : list Z) : Prop := NoDup order /\ (forall t, In t order <-> In t (s_ids S)).
(** Values of a market's products. *)
Definition in_market {A} (S : simulation) (t : Z) (v : nat -> A) (j : nat) : A := v (nth j (rows_of (s_ids S) t) 0).
(** Costs depend on shares. *)
Definition costs_use_shares (S : supply) : Prop := exists k, k < sK3 S /\ uses (sX3 S k) = true.
