(** What callers of an optimisation wrapper rely on, stated about the sequence of requests alone. *)
From Coq Require Import Reals List Bool Arith.
From Verif Require Import FltModel OptimModel.
Import ListNotations.
Local Open Scope nat_scope.

(** A request: what was asked for, at which vector, and after how many iterations. *)
Record request := Request { asked : kind; at_vector : vec; after : nat }.

(** The requests in a sequence of actions, following the routine's own writes to its arrays. *)
Fixpoint requests (memory : nat -> vec) (ticks : nat) (actions : list action) : list request :=
  match actions with
  | [] => []
  | Ask k a :: rest => Request k (memory a) ticks :: requests memory ticks rest
  | Write a v :: rest => requests (fun b => if Nat.eqb b a then v else memory b) ticks rest
  | Overwrite _ _ :: rest => requests memory ticks rest
  | Tick :: rest => requests memory (S ticks) rest
  end.

(** The routine leaves the gradient arrays that it is handed alone. *)
Definition reads_gradients_only (actions : list action) : Prop := forall e v, ~ In (Overwrite e v) actions.

(** Equal vectors without NaN, which are what two requests must share for one evaluation to do. *)
Definition same_vector (v w : vec) : Prop := v = w /\ forall x, In x v -> x <> NaN.

Definition no_request : request := Request Objective [] 0.
Definition vector_of (log : list request) (i : nat) : vec := at_vector (nth i log no_request).

(** Request [i] is the first, or differs from the previous one: an evaluation must happen. *)
Definition opens (log : list request) (i : nat) : Prop :=
  i = 0 \/ ~ same_vector (vector_of log i) (vector_of log (i - 1)).

(** Number of requests among the first [n] that open a new run of equal vectors. *)
Inductive runs (log : list request) : nat -> nat -> Prop :=
| runs_none : runs log 0 0
| runs_open n c : runs log n c -> opens log n -> runs log (S n) (S c)
| runs_continue n c : runs log n c -> ~ opens log n -> runs log (S n) c.

Definition part (k : kind) (result : flt * option vec) : answer :=
  match k with Objective => Value (fst result) | Gradient => Slope (snd result) end.

(** Answer [i] is the requested part of one evaluation at the requested vector itself: the one that
    the opening request of its run of equal vectors caused. *)
Definition answered (f : objective_function) (log : list request) (answers : list answer) : Prop :=
  List.length answers = List.length log /\
  forall i, i < List.length log ->
    exists j c, j <= i /\ opens log j /\ (forall k, j < k <= i -> ~ opens log k) /\
      runs log (S j) c /\
      nth i answers (Value NaN) =
        part (asked (nth i log no_request)) (f (after (nth j log no_request)) c (vector_of log i)).

Definition ticks_in (actions : list action) : nat :=
  List.length (filter (fun a => match a with Tick => true | _ => false end) actions).

(** ** Knitro *)

(** The requests of Knitro: the iterations passed on at a request are the most that were seen by a
    request that looks, which is every one if [both] and every objective request otherwise. *)
Fixpoint knitro_requests (both : bool) (memory : nat -> vec) (seen reached : nat) (actions : list knitro_action)
    : list request :=
  match actions with
  | [] => []
  | KAsk k a :: rest =>
      let seen' := match k with
                   | Objective => Nat.max seen reached
                   | Gradient => if both then Nat.max seen reached else seen
                   end in
      Request k (memory a) seen' :: knitro_requests both memory seen' reached rest
  | KWrite a v :: rest => knitro_requests both (fun b => if Nat.eqb b a then v else memory b) seen reached rest
  | KReach n :: rest => knitro_requests both memory seen n rest
  end.

Definition clipped (limit : R) (x y : flt) : Prop :=
  match x with
  | Num r => ((Rabs r <= limit)%R -> y = Num r) /\ ((limit < r)%R -> y = Num limit) /\ ((r < - limit)%R -> y = Num (- limit))
  | PInf => y = Num limit
  | NInf => y = Num (- limit)
  | NaN => y = NaN
  end.

Definition clipped_answer (limit : R) (a b : answer) : Prop :=
  match a, b with
  | Value x, Value y => clipped limit x y
  | Slope None, Slope None => True
  | Slope (Some g), Slope (Some h) => Forall2 (clipped limit) g h
  | _, _ => False
  end.

Definition knitro_answered (limit : R) (f : objective_function) (log : list request) (answers : list answer) : Prop :=
  List.length answers = List.length log /\
  forall i, i < List.length log ->
    exists j c, j <= i /\ opens log j /\ (forall k, j < k <= i -> ~ opens log k) /\
      runs log (S j) c /\
      clipped_answer limit
        (part (asked (nth i log no_request)) (f (after (nth j log no_request)) c (vector_of log i)))
        (nth i answers (Value NaN)).
