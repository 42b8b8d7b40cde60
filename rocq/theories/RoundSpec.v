(** What is assumed about floating point arithmetic. *)
From Coq Require Import Reals List Bool Arith Sorting.Permutation.
From Verif Require Import FltModel RoundModel.
Local Open Scope R_scope.

(** Rounding is monotone and does nothing to numbers that are already rounded, such as integers up to N, which do not
    overflow. *)
Record rounds (A : arithmetic) (N : nat) : Prop := {
  rounds_mono : forall x y, x <= y -> rnd A x <= rnd A y;
  rounds_idem : forall x, rnd A (rnd A x) = rnd A x;
  rounds_nat : forall k, (k <= N)%nat -> rnd A (INR k) = INR k;
  rounds_opp : forall x, rnd A (- x) = - rnd A x;
  rounds_finite : INR N <= omega A
}.
(** Exponentials are monotone, not negative, and right at zero; logarithms are monotone and right at one. *)
Record exponential (A : arithmetic) : Prop := {
  exp_mono : forall x y, x <= y -> Exp A x <= Exp A y;
  exp_nonneg : forall x, 0 <= Exp A x;
  exp_zero : Exp A 0 = 1
}.
Record logarithm (A : arithmetic) : Prop := {
  log_mono : forall x y, 0 < x -> x <= y -> Log A x <= Log A y;
  log_one : Log A 1 = 0
}.

(** Rounding has relative errors of at most eps, apart from underflow, and exponentials do as well. *)
Record accurate (A : arithmetic) (eps eta : R) : Prop := {
  rnd_error : forall x, Rabs (rnd A x - x) <= eps * Rabs x + eta;
  exp_error : forall x, Rabs (Exp A x - exp x) <= eps * exp x;
  eps_small : eps <= / 8;
  eta_small : 0 <= eta <= eps
}.

(** All of some numbers are added up once. *)
Definition adds_up (t : tree) (n : nat) : Prop := Permutation (leaves t) (seq 0 n).

(** Each product is in one of H groups, and those of each group are added up once, as are groups. *)
Record nests (J H : nat) (group : nat -> nat) (group_tree : nat -> tree) (groups_tree : tree) : Prop := {
  nests_group : forall j, (j < J)%nat -> (group j < H)%nat;
  nests_add : forall h, (h < H)%nat -> Permutation (leaves (group_tree h)) (filter (fun j => Nat.eqb (group j) h) (seq 0 J));
  nests_groups : adds_up groups_tree H
}.

(** A probability. *)
Definition in_unit (x : flt) : Prop := exists r, x = Num r /\ 0 <= r <= 1.
(** A finite number of absolute value at most n. *)
Definition bounded (n : nat) (x : flt) : Prop := exists r, x = Num r /\ - INR n <= r <= INR n.
(** A positive number with a logarithm of absolute value at most n. *)
Definition log_bounded (A : arithmetic) (n : nat) (x : flt) : Prop :=
  exists r, x = Num r /\ 0 < r /\ - INR n <= Log A r <= INR n.

(** Data of a market with J products and I agents: mu at most M and weights at most W in absolute value, logarithms of
    shares at most Q, and those of bounds on shares, of which there is a lower one, and of total weight at most C. *)
Record market_data (A : arithmetic) (N J I M W Q C : nat) (agents : tree) (mu : nat -> nat -> flt) (weights shares : nat -> flt)
    (lower upper : option flt) : Prop := {
  data_agents : adds_up agents I;
  data_mu : forall i j, (i < I)%nat -> (j < J)%nat -> bounded M (mu i j);
  data_weights : forall i, (i < I)%nat -> bounded W (weights i);
  data_shares : forall j, (j < J)%nat -> log_bounded A Q (shares j);
  data_lower : exists b, lower = Some b /\ log_bounded A C b;
  data_upper : forall b, upper = Some b -> log_bounded A C b;
  data_total : Log A (INR (W * I)) <= INR C;
  data_size : (W * I <= N)%nat
}.
