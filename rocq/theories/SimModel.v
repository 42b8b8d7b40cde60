(** Model of simulated structural errors with lags, and of replacing exogenous characteristics.
    Definitions only. *)
From Coq Require Import Reals List Bool Arith.
From Verif Require Import Base.
Import ListNotations.
Local Open Scope nat_scope.

(** ** Structural errors *)

Section Errors.
(** [N] rows, [lag_indices], the parameters [phi], the transformation of initial draws, and the draws
    of [multivariate_normal]: row [r] and component 0 (xi) or 1 (omega). *)
Variables (N : nat) (lag : nat -> nat) (phi transform : nat -> nat -> R) (draws : nat -> nat -> R).

(** [_lags].  economy.py 115. *)
Definition has_lag (r : nat) : bool := negb (Nat.eqb (lag r) r).

(** One row of [x @ A.T]. *)
Definition times_transpose (x : nat -> R) (A : nat -> nat -> R) (c : nat) : R := sumn 2 (fun d => (x d * A c d)%R).

(** [xi_and_omega[~self._lags] = xi_and_omega[~self._lags] @ initial_transform.T].  simulation.py 629. *)
Definition initial_errors : nat -> nat -> R :=
  fun r c => if has_lag r then draws r c else times_transpose (draws r) transform c.

(** [np.minimum.at(lookup, lag_indices[_lags], np.arange(N)[_lags])] on an array full of [N].
    simulation.py 632-633. *)
Definition lookup (i : nat) : nat :=
  fold_right Nat.min N (filter (fun j => has_lag j && Nat.eqb (lag j) i) (seq 0 N)).

(** [lookup[indices]] without the rows that nothing lags. *)
Definition following (indices : list nat) : list nat :=
  filter (fun j => negb (Nat.eqb j N)) (map lookup indices).

(** [xi_and_omega[next_indices] += xi_and_omega[current_indices] @ self.phi.T].  simulation.py 637-638. *)
Definition propagate (x : nat -> nat -> R) (next : list nat) : nat -> nat -> R :=
  fun r c => if in_dec Nat.eq_dec r next then (x r c + times_transpose (x (lag r)) phi c)%R else x r c.

(** The loop.  simulation.py 636-640.  [None]: still running when fuel ends. *)
Fixpoint propagate_all (fuel : nat) (x : nat -> nat -> R) (next : list nat) : option (nat -> nat -> R) :=
  match next with
  | [] => Some x
  | _ => match fuel with
         | O => None
         | S fuel => propagate_all fuel (propagate x next) (following next)
         end
  end.

(** [xi] and [omega].  simulation.py 621-644. *)
Definition simulate_errors (fuel : nat) : option (nat -> nat -> R) :=
  propagate_all fuel initial_errors (following (filter (fun r => negb (has_lag r)) (seq 0 N))).
End Errors.

(** ** Replacing exogenous characteristics *)

Section Exogenous.
(** Variable names, and columns of characteristics: the names in a column's formulation and its value
    as a function of a row of data. *)
Definition vname := nat.
Definition row := vname -> R.
Record column := Column { names : list vname; value : row -> R }.

(** Characteristics times parameters. *)
Definition index_of_row (columns : list column) (parameters : list R) (d : row) : R :=
  fold_right (fun p acc => (value (fst p) d * snd p + acc)%R) 0%R (combine columns parameters).

Definition mentions (x : vname) (c : column) : bool := existsb (Nat.eqb x) (names c).

(** The validation of [X1_name].  simulation.py 951-962.  [untransformed x c]: whether the string of
    the column's expression is the name, which is what [X1_name == f] tests. *)
Variable untransformed : vname -> column -> bool.

Fixpoint first_index (x : vname) (columns : list column) : option nat :=
  match columns with
  | [] => None
  | c :: rest => if untransformed x c then Some 0 else option_map S (first_index x rest)
  end.

Definition validate_name (x endogenous : vname) (own others : list column) (parameters : list R) : option nat :=
  match first_index x own with
  | None => None
  | Some k =>
      if Nat.ltb 1 (List.length (filter (mentions x) own)) then None
      else if existsb (mentions x) others then None
      else if Nat.eqb x endogenous then None
      else if Req_EM_T (nth k parameters 0%R) 0 then None
      else Some k
  end.

Definition override (d : row) (x : vname) (v : R) : row := fun y => if Nat.eqb y x then v else d y.

(** [X1[:, [X1_index]] + (true_delta - xi - X1 @ beta) / beta[X1_index]].  simulation.py 1018-1026;
    the same expression serves X3 with tilde costs, omega and gamma. *)
Definition replacement (columns : list column) (parameters : list R) (k : nat) (d : row) (target error : R) : R :=
  (value (nth k columns (Column [] (fun _ => 0%R))) d
   + (target - error - index_of_row columns parameters d) / nth k parameters 0)%R.

(** [replace_exogenous] for one row of data, without the market-level computation of delta and costs.
    simulation.py 944-1026.  The row of [product_data] in the results. *)
Definition replace_exogenous (X1 X2 X3 : list column) (beta gamma : list R) (prices shares X1_name X3_name : vname)
    (d : row) (delta xi costs omega : R) : option row :=
  match validate_name X1_name prices X1 (X2 ++ X3) beta with
  | None => None
  | Some k1 =>
      match X3 with
      | [] => Some (override d X1_name (replacement X1 beta k1 d delta xi))
      | _ =>
          match validate_name X3_name shares X3 (X1 ++ X2) gamma with
          | None => None
          | Some k3 => Some (override (override d X1_name (replacement X1 beta k1 d delta xi))
                                      X3_name (replacement X3 gamma k3 d costs omega))
          end
      end
  end.
End Exogenous.
