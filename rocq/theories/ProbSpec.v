(** Specification of choice probabilities row by row, independent of the model of the code. *)
From Coq Require Import Reals ZArith List Bool Arith.
From Verif Require Import Base DemandSpec.
Import ListNotations.
Local Open Scope R_scope.

(** The probability with which someone with utilities V (one for each row of product data) for whom products
    are available or not chooses product row i: products compete with the available ones of the same market.
    Without nests (H = 0) this is logit and otherwise nested logit. *)
Definition choice_probability (ids : list Z) (H : nat) (nest : nat -> nat) (rho : nat -> R)
    (available : nat -> bool) (V : nat -> R) (i : nat) : R :=
  let included := fun l => Z.eqb (nth l ids 0%Z) (nth i ids 0%Z) && available l in
  if Nat.eqb H 0 then logit (List.length ids) included true V i
  else nested (List.length ids) H nest rho included true V i.

(** The number of agents in the market that has most of them. *)
Definition most (n : nat) (sizes : list nat) : Prop := (forall s, In s sizes -> s <= n)%nat /\ In n sizes.

(** The sum of f over elements of a list. *)
Definition total_over (f : nat -> R) (l : list nat) : R := fold_right (fun n acc => f n + acc) 0 l.

(** What stays fixed when prices change: mean utilities less what observed characteristics contribute. *)
Definition unobserved (K1 : nat) (X1 : nat -> nat -> R -> R) (beta prices delta : nat -> R) (i : nat) : R :=
  delta i - sumn K1 (fun k => beta k * X1 k i (prices i)).
(** Utility of product row i at prices x, from mean utilities that are given or else follow prices, and from
    one agent's coefficients. *)
Definition utility_at (K1 : nat) (X1 : nat -> nat -> R -> R) (beta : nat -> R) (K2 : nat) (X2 : nat -> nat -> R -> R)
    (xi : nat -> R) (given : option (nat -> R)) (x : nat -> R) (coef : nat -> R) (i : nat) : R :=
  match given with
  | Some d => d i
  | None => xi i + sumn K1 (fun k => beta k * X1 k i (x i))
  end + sumn K2 (fun k => X2 k i (x i) * coef k).

(** The nesting parameter of a nest if there is one for each, or one for all. *)
Definition nest_rho (size : nat) (rho : nat -> R) (h : nat) : R := if Nat.eqb size 1 then rho 0%nat else rho h.
