(** Vocabulary for statements about instruments. *)
From Coq Require Import Reals List Bool Arith ZArith Ascii String Sorted.
From Verif Require Import FormModel ParamsModel BasicsSpec ConstrSpec InstrModel.
Import ListNotations.
Local Open Scope string_scope.
Local Open Scope list_scope.

(** What markets determine: other prices and other market shares with the same characteristics of products. *)
Definition other_outcome (d : dataset) (prices shares : nat -> R) : dataset :=
  fun n s => if String.eqb s "prices" then prices n else if String.eqb s "shares" then shares n else d n s.
(** Formulas of columns that do not use a variable. *)
Definition without (s : string) (X : list expr) : Prop := forall e, In e X -> ~ In s (free e).
(** All columns of a matrix that may not exist. *)
Definition all_columns (Z : option (list column)) : list column := match Z with Some l => l | None => [] end.
(** Positions with a property, in order. *)
Definition positions (P : nat -> Prop) (l : list nat) : Prop := StronglySorted lt l /\ forall k, In k l <-> P k.
(** The number of elements with a property. *)
Definition counts {A} (P : A -> Prop) (l : list A) (n : nat) : Prop :=
  exists m, NoDup m /\ List.length m = n /\ forall x, In x m <-> In x l /\ P x.
(** Rows are not all the same. *)
Definition not_constant (N : nat) (x : nat -> R) : Prop := exists n, n < N /\ x n <> x 0.
(** A column has the same values in all rows of data. *)
Definition agrees (N : nat) (x y : nat -> R) : Prop := forall n, n < N -> x n = y n.
(** Markets have different numbers of products. *)
Definition sizes_differ (market_ids : list Z) : Prop :=
  exists t u, In t market_ids /\ In u market_ids /\ List.length (rows_of market_ids t) <> List.length (rows_of market_ids u).
(** Sums of a characteristic over the firm's other products in a market or over products of rivals. *)
Definition sum_of_others (market_ids firm_ids : list Z) (x z : nat -> R) : Prop :=
  agrees (List.length market_ids) z (fun n => sum_where (List.length market_ids) (others market_ids firm_ids n) x).
Definition sum_of_rivals (market_ids firm_ids : list Z) (x z : nat -> R) : Prop :=
  agrees (List.length market_ids) z (fun n => sum_where (List.length market_ids) (rivals market_ids firm_ids n) x).
(** Characteristics that are summed: variables in formulas other than the endogenous one, and a constant if it gives numbers of products that
    differ across markets. *)
Definition uses (X : list expr) (s : string) : Prop := exists e, In e X /\ In s (free e).
Definition summed (market_ids : list Z) (d : dataset) (endogenous : string) (X : list expr) (x : nat -> R) : Prop :=
  (sizes_differ market_ids /\ forall n, x n = 1%R) \/ exists s, uses X s /\ s <> endogenous /\ forall n, x n = d n s.
(** What the excluded instruments of one side should be: sums that are not constant, and variables of only the other side. *)
Definition default_instrument (market_ids firm_ids : list Z) (d : dataset) (endogenous other_endogenous : string) (X other_X : list expr)
    (z : nat -> R) : Prop :=
  (not_constant (List.length market_ids) z /\
   exists x, summed market_ids d endogenous X x /\ (sum_of_others market_ids firm_ids x z \/ sum_of_rivals market_ids firm_ids x z)) \/
  exists s, uses other_X s /\ s <> other_endogenous /\ ~ (uses X s /\ s <> endogenous) /\ agrees (List.length market_ids) z (fun n => d n s).
