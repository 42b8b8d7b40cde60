(** What should be reported about numerical errors. *)
From Coq Require Import List Bool.
From Verif Require Import FaultModel.
Import ListNotations.

(** What happens in a function itself: messages of errors that are not ignored, and calls of other decorated functions. *)
Inductive event := Message (m : nat) | Nested.
Fixpoint events (ignored : kind -> bool) (c : code) : list event :=
  match c with
  | Raise k m => match k with Under => [] | _ => if ignored k then [] else [Message m] end
  | Ignoring ks body => flat_map (events (fun k => ignored k || ks k)) body
  | Call _ _ => [Nested]
  | Append _ => []
  end.
Definition own_events (body : list code) : list event := flat_map (events (fun _ => false)) body.
Definition messages (l : list event) : list nat := flat_map (fun e => match e with Message m => [m] | Nested => [] end) l.

(** Each function should report one error with all of its messages, if there are any, after those of functions that it
    calls. *)
Definition own_error (class : nat) (body : list code) : list error :=
  match messages (own_events body) with [] => [] | l => [Numerical class l] end.
Fixpoint expected (c : code) : list error :=
  match c with
  | Raise _ _ => []
  | Ignoring _ body => flat_map expected body
  | Call class body => flat_map expected body ++ own_error class body
  | Append e => [OtherError e]
  end.

(** No message follows a nested call, here and in called functions. *)
Definition settled_events (l : list event) : Prop := forall before after, l = before ++ Nested :: after -> messages after = [].
Fixpoint settled_calls (c : code) : Prop :=
  match c with
  | Raise _ _ | Append _ => True
  | Ignoring _ body => fold_right (fun c p => settled_calls c /\ p) True body
  | Call _ body => settled_events (own_events body) /\ fold_right (fun c p => settled_calls c /\ p) True body
  end.

(** A message is raised by some function, and not ignored there. *)
Fixpoint raised (ignored : kind -> bool) (c : code) (m : nat) : Prop :=
  match c with
  | Raise k m' => m = m' /\ k <> Under /\ ignored k = false
  | Ignoring ks body => fold_right (fun c p => raised (fun k => ignored k || ks k) c m \/ p) False body
  | Call _ body => fold_right (fun c p => raised (fun _ => false) c m \/ p) False body
  | Append _ => False
  end.
Definition reported (l : list error) (m : nat) : Prop := exists class ms, In (Numerical class ms) l /\ In m ms.
