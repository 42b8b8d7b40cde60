(** What fixed effects are. *)
From Coq Require Import List Bool Arith ZArith String.
From Verif Require Import EffectsModel.
Import ListNotations.

(** The value of a variable in a row. *)
Definition value_at (d : data) (v : string) (n : nat) : option Z :=
  match d v with Some c => nth_error (cells c) n | None => None end.
(** A variable that can be absorbed, with N rows. *)
Definition absorbable (d : data) (N : nat) (f : factor) : Prop :=
  exists v c, d v = Some c /\ List.length (cells c) = N /\ (f = Marked v \/ f = Plain v /\ categorical c = true).
(** Rows share a fixed effect if all variables of the term have the same values. *)
Definition same_effect (d : data) (t : term) (n m : nat) : Prop := forall v, In v (names t) -> value_at d v n = value_at d v m.
(** A term that does not depend on data: it has no factors, or only functions of no variables. *)
Definition without_variables (t : term) : bool := forallb (fun f => match f with Compound [] => true | _ => false end) t.
