(** What users of simulations rely on. *)
From Coq Require Import Reals List Bool Arith.
From Verif Require Import Base SimModel ResultsSpec.
Import ListNotations.
Local Open Scope nat_scope.

Definition is_initial (lag : nat -> nat) (r : nat) : Prop := lag r = r.

(** Lags are row numbers and no row is the lag of two others. *)
Definition proper_lags (N : nat) (lag : nat -> nat) : Prop :=
  (forall r, r < N -> lag r < N) /\
  forall i j, i < N -> j < N -> ~ is_initial lag i -> ~ is_initial lag j -> lag i = lag j -> i = j.

(** Going back far enough from row [r], there is an initial period. *)
Definition started (lag : nat -> nat) (r : nat) : Prop := exists k, is_initial lag (Nat.iter k lag r).

(** Row [r] of the errors obeys the autoregression with innovation [draws r]. *)
Definition autoregressive (lag : nat -> nat) (phi draws errors : nat -> nat -> R) (r : nat) : Prop :=
  forall c, errors r c = (draws r c + (phi c 0%nat * errors (lag r) 0%nat + phi c 1%nat * errors (lag r) 1%nat))%R.

Definition transformed (transform draws errors : nat -> nat -> R) (r : nat) : Prop :=
  forall c, errors r c = (transform c 0%nat * draws r 0%nat + transform c 1%nat * draws r 1%nat)%R.

(** ** Replacing exogenous characteristics *)

(** The value of a column depends only on the variables in its formulation. *)
Definition column_ok (c : column) : Prop :=
  forall d d', (forall x, In x (names c) -> d x = d' x) -> value c d = value c d'.

(** Whether a column is untransformed is judged correctly: its value is the variable's and its
    formulation has only that name. *)
Definition recognises (untransformed : vname -> column -> bool) : Prop :=
  forall x c, untransformed x c = true -> names c = [x] /\ forall d, value c d = d x.

Fixpoint linear_index (columns : list column) (parameters : list R) (d : row) : R :=
  match columns, parameters with
  | c :: columns', b :: parameters' => (value c d * b + linear_index columns' parameters' d)%R
  | _, _ => 0%R
  end.

(** ** Moments of simulated errors *)

(** Draws for different rows are uncorrelated and have covariances [S], over a finite distribution. *)
Definition uncorrelated_draws (N K : nat) (p : nat -> R) (draws : nat -> nat -> nat -> R) (S : nat -> nat -> R) : Prop :=
  forall r s a b, r < N -> s < N -> a < 2 -> b < 2 ->
    expect K p (fun k => (draws k r a * draws k s b)%R) = if Nat.eqb r s then S a b else 0%R.

(** [V = S + phi V phi']: what [scipy.linalg.solve_discrete_lyapunov(phi, S)] solves. *)
Definition lyapunov (phi S V : nat -> nat -> R) : Prop :=
  forall a b, a < 2 -> b < 2 -> V a b = (S a b + sumn 2 (fun c => sumn 2 (fun d => phi a c * V c d * phi b d)))%R.

(** [A = L L'], and a left inverse. *)
Definition factor (A L : nat -> nat -> R) : Prop :=
  forall a b, a < 2 -> b < 2 -> A a b = sumn 2 (fun c => (L a c * L b c)%R).
Definition left_inverse (L I : nat -> nat -> R) : Prop :=
  forall a b, a < 2 -> b < 2 -> sumn 2 (fun c => (I a c * L c b)%R) = if Nat.eqb a b then 1%R else 0%R.
Definition product (A B : nat -> nat -> R) : nat -> nat -> R := fun a b => sumn 2 (fun c => (A a c * B c b)%R).
