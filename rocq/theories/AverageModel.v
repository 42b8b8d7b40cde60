(** Validation of survey weights and values of micro moments.  /repo/pyblp/markets/market.py 1518-1563.  Definitions only. *)
From Coq Require Import Reals List Bool Arith.
From Verif Require Import FltModel MicroModel.
Import ListNotations.

(** Arrays as users return them: a shape and elements, converted to floats.  None: the function fails, or the conversion does. *)
Record returned := mk_returned { rt_shape : list nat; rt_elements : list flt }.
Inductive checked := Accepted (a : returned) | Failed | BadShape | Negative.

Definition shape_eqb (a b : list nat) : bool := if list_eq_dec Nat.eq_dec a b then true else false.
Definition acceptable_shapes (I J : nat) : list (list nat) :=
  [[I; J]; [I; 1 + J]; [I; J; J]; [I; 1 + J; J]; [I; J; 1 + J]; [I; 1 + J; 1 + J]].

(** [compute_micro_weights] with I agents, or as many as the chunk has.  1518-1544. *)
Definition compute_micro_weights (I J : nat) (user : option returned) : checked :=
  match user with
  | None => Failed
  | Some w => if negb (existsb (shape_eqb (rt_shape w)) (acceptable_shapes I J)) then BadShape
              else if existsb (fun x => fltb x (Num 0)) (rt_elements w) then Negative
              else Accepted w
  end.

(** [compute_micro_values].  1546-1563. *)
Definition compute_micro_values (weights : returned) (user : option returned) : checked :=
  match user with
  | None => Failed
  | Some v => if negb (shape_eqb (rt_shape v) (rt_shape weights)) then BadShape else Accepted v
  end.

(** How the number and lengths of axes are read: which options are in them.  1622-1624, 1837-1866. *)
Definition read_shape (J : nat) (s : list nat) : option shape :=
  match s with
  | [_; n] => Some (Two (Nat.eqb n (1 + J)))
  | [_; n; k] => Some (Three (Nat.eqb n (1 + J)) (Nat.eqb k (1 + J)))
  | _ => None
  end.
