(** Vocabulary for statements about finite differences. *)
From Coq Require Import Reals List.
From Verif Require Import Base FltModel.
Local Open Scope R_scope.

(** One parameter is changed. *)
Definition moved (theta : nat -> R) (j : nat) (t : R) : nat -> R := fun k => if Nat.eqb k j then theta k + t else theta k.
(** A central difference quotient of f in parameter j. *)
Definition central (f : (nat -> R) -> R) (theta : nat -> R) (e : R) (j : nat) : R :=
  (f (moved theta j (e / 2)) - f (moved theta j (- (e / 2)))) / e.
(** Lists of numbers. *)
Definition numbers (n : nat) (g : nat -> R) : list flt := map (fun i => Num (g i)) (seq 0 n).
(** Along parameter j, f has three derivatives as far as e / 2 away from theta, the first of which is d at theta and the third of which is at most L in
    absolute value. *)
Definition smooth_along (f : (nat -> R) -> R) (theta : nat -> R) (j : nat) (e d L : R) : Prop :=
  exists f1 f2 f3 : R -> R, f1 0 = d /\
  forall t, Rabs t <= e / 2 ->
    derivable_pt_lim (fun s => f (moved theta j s)) t (f1 t) /\ derivable_pt_lim f1 t (f2 t) /\ derivable_pt_lim f2 t (f3 t) /\
    Rabs (f3 t) <= L.
(** Parameters at which functions are evaluated for central differences. *)
Definition perturbation (P : nat) (e : R) (theta x : nat -> R) : Prop :=
  exists j t, (j < P)%nat /\ (t = e / 2 \/ t = - (e / 2)) /\ x = moved theta j t.
