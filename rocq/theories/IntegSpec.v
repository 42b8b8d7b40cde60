(** What integration nodes and weights should be. *)
From Coq Require Import Reals ZArith List Bool Arith Permutation.
From Verif Require Import Base IntegModel.
Import ListNotations.
Local Open Scope R_scope.

(** Sums of lists, and the integral of a function over nodes and weights. *)
Fixpoint suml {A} (f : A -> R) (l : list A) : R :=
  match l with
  | [] => 0
  | a :: l => f a + suml f l
  end.
Definition integral {A} (nodes : list A) (weights : list R) (F : A -> R) : R :=
  suml (fun p => snd p * F (fst p)) (combine nodes weights).

(** A univariate rule is a list of nodes and weights.  The iterated sum of a function of several variables, with the rule
    of each dimension. *)
Definition rule := list (R * R).
Definition univariate (r : rule) (f : R -> R) : R := suml (fun p => snd p * f (fst p)) r.
Fixpoint iterated (rules : list rule) (F : list R -> R) : R :=
  match rules with
  | [] => F []
  | r :: rules => univariate r (fun x => iterated rules (fun y => F (x :: y)))
  end.
(** The rule on the whole line for data on the half line: a node at zero is used once and other nodes twice. *)
Definition whole_line (nodes weights : list R) : rule :=
  flat_map (fun p => if Req_EM_T (fst p) 0 then [p] else [(- fst p, snd p); p]) (combine nodes weights).

(** Sequences of positive integers with a length and a sum. *)
Definition positive_sequence (size summation : nat) (l : list nat) : Prop :=
  length l = size /\ Forall (fun n => (1 <= n)%nat) l /\ fold_right plus 0%nat l = summation.

(** The digit of an integer at a position, and the radical inverse with a number of digits, perhaps with digits at each
    position permuted. *)
Definition digit (base position i : nat) : nat := Nat.modulo (Nat.div i (base ^ position)) base.
Definition radical_inverse (base count : nat) (permuted : nat -> nat -> nat) (i : nat) : R :=
  sumn count (fun d => INR (permuted d (digit base d i)) / INR base ^ (d + 1)).
Definition unscrambled (d k : nat) : nat := k.
(** Permutations of digits. *)
Definition digit_permutation (base : nat) (p : nat -> nat) : Prop :=
  (forall k, (k < base)%nat -> (p k < base)%nat) /\ (forall j k, (j < base)%nat -> (k < base)%nat -> p j = p k -> j = k).

(** In the c-th of n equal subintervals of the unit interval. *)
Definition in_stratum (n c : nat) (x : R) : Prop := INR c / INR n <= x < INR (S c) / INR n.
(** Exactly one index that satisfies a condition. *)
Definition exactly_one (P : nat -> Prop) : Prop := exists i, P i /\ forall j, P j -> j = i.
(** Permutations and uniform draws of a generator. *)
Definition permutes (l : list nat) (n : nat) : Prop := Permutation l (seq 0 n).
Definition unit_draws (l : list R) (n : nat) : Prop := length l = n /\ Forall (fun u => 0 <= u < 1) l.
Definition good_generator {S} (g : generator S) : Prop :=
  (forall state n, permutes (fst (permutation g state n)) n) /\ (forall state n, unit_draws (fst (uniform g state n)) n) /\
  (forall state n d, length (fst (normal g state n d)) = n).

(** Products of functions of one variable. *)
Fixpoint product_of (fs : list (R -> R)) (x : list R) : R :=
  match fs, x with
  | f :: fs, a :: x => f a * product_of fs x
  | _, _ => 1
  end.

(** Data for a rule: nodes on the half line, zero first if the level is odd or the rule is nested, that have weights on the
    whole line summing to one. *)
Definition sound_data (middle : bool) (x w : list R) : Prop :=
  length x = length w /\ (if middle then exists y, x = 0 :: y /\ Forall (Rlt 0) y else Forall (Rlt 0) x) /\
  univariate (whole_line x w) (fun _ => 1) = 1.
Definition sound_tables (t : quadrature_tables) (nested : bool) : Prop :=
  forall level x w, (1 <= level)%nat -> get_quadrature_data t level = Some (x, w) -> sound_data (nested || Nat.odd level) x w.

(** The combination of products of univariate rules, for sequences of levels with all sums d + q. *)
Definition enumerates (P : list nat -> Prop) (l : list (list nat)) : Prop := NoDup l /\ forall x, In x l <-> P x.
Definition smolyak (d level : nat) (rules : nat -> rule) (sequences : nat -> list (list nat)) (F : list R -> R) : R :=
  sumn level (fun q => if Nat.leb level (q + d)
    then (-1) ^ (level - 1 - q) * C (d - 1) (level - 1 - q) * suml (fun levels => iterated (map rules levels) F) (sequences q) else 0).
(** Rules of the tables: on the half line and on the whole line. *)
Definition half (t : quadrature_tables) (level : nat) : rule :=
  match get_quadrature_data t level with Some (x, w) => combine x w | None => [] end.
Definition whole (r : rule) : rule := flat_map (fun p => if Req_EM_T (fst p) 0 then [p] else [(- fst p, snd p); p]) r.

(** Specifications that draw a number of nodes, and what others need of tables. *)
Definition sampling (s : specification) : bool := match s with ProductRule _ | Grid => false | _ => true end.
Definition tables_for (t : quadrature_tables) (s : specification) : Prop :=
  match s with ProductRule nested => sound_tables t nested | Grid => exists nested, sound_tables t nested | _ => True end.

(** Moments of the standard normal distribution: 1, 0, 1, 0, 3, 0, 15 and so on. *)
Fixpoint normal_moment (k : nat) : R :=
  match k with
  | O => 1
  | S O => 0
  | S (S k) => INR (k + 1) * normal_moment k
  end.
