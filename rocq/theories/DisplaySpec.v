(** Vocabulary for statements about displayed progress. *)
From Coq Require Import Ascii String Reals ZArith List Arith Bool.
From Verif Require Import FltModel TableModel DisplayModel.
Import ListNotations.

(** The smallest of the numbers among values none of which is minus infinity. *)
Definition least (l : list flt) (m : R) : Prop := In (Num m) l /\ ~ In NInf l /\ forall y, In (Num y) l -> (m <= y)%R.
(** A value is less than all numbers before it, of which there are some, by d. *)
Definition improves (before : list flt) (x : flt) (d : R) : Prop := exists m r, least before m /\ x = Num r /\ (r < m)%R /\ d = (m - r)%R.
(** The first number. *)
Definition first_number (l : list flt) (x : R) : Prop := exists a b, l = a ++ Num x :: b /\ forall y, ~ In (Num y) a.
Fixpoint sum_shown (l : list (option R)) : R := match l with [] => 0%R | Some d :: l' => (d + sum_shown l')%R | None :: l' => sum_shown l' end.
(** The cell under a label. *)
Definition under (header : list label) (cells : list text) (l : label) (s : text) : Prop := In (l, s) (combine header cells).
(** Infinities, NaN, zero, and numbers whose exponents have at most two digits. *)
Definition moderate (x : flt) : Prop := match x with Num r => (r = 0 \/ powerRZ 10 (-99) <= Rabs r <= 9 * powerRZ 10 99)%R | _ => True end.
(** Counts and times that are not wider than labels, and moderate numbers. *)
Definition fits (s : settings) (e : evaluation) (smallest : flt) : Prop :=
  (Z.of_nat (step s) < 10 ^ 4)%Z /\ (0 <= elapsed e <= 359999999)%R /\ (Z.of_nat (iterations e) < 10 ^ 12)%Z /\ (Z.of_nat (evaluation_count e) < 10 ^ 11)%Z /\ (Z.of_nat (list_sum (map fst (solver_stats e))) < 10 ^ 11)%Z /\ (Z.of_nat (list_sum (map snd (solver_stats e))) < 10 ^ 11)%Z /\
  (Z.of_nat (length (clipped_shares e)) < 10 ^ 7)%Z /\ (Z.of_nat (length (clipped_costs e)) < 10 ^ 7)%Z /\
  moderate (objective_value e) /\ moderate (fsub smallest (objective_value e)) /\ moderate (gradient_norm e) /\ Forall moderate (theta e).
(** The distinct elements of a list, in the order in which they appear first. *)
Inductive distinct_in_order {A} : list A -> list A -> Prop :=
  | distinct_nil : distinct_in_order [] []
  | distinct_new l ds x : distinct_in_order l ds -> ~ In x l -> distinct_in_order (l ++ [x]) (ds ++ [x])
  | distinct_again l ds x : distinct_in_order l ds -> In x l -> distinct_in_order (l ++ [x]) ds.
