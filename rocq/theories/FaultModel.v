(** Detection of numerical errors: NumPy's error state, [NumericalErrorHandler] and [NumericalErrorDetector].
    pyblp/utilities/basics.py 667-707.  Definitions only. *)
From Coq Require Import List Arith Bool QArith.
Import ListNotations.
Open Scope nat_scope.

(** Kinds of floating point errors, and what functions do as far as these are concerned: an operation raises an error
    with a message, a block of code ignores some kinds ([with np.errstate(divide='ignore', ...)]), a function that is
    decorated with a handler for a class of errors is called and the errors it returns are added to the caller's
    ([errors.extend(...)]), and another error is added ([errors.append(...)]). *)
Inductive kind := Divide | Over | Under | Invalid.
Inductive code :=
  | Raise (k : kind) (message : nat)
  | Ignoring (ks : kind -> bool) (body : list code)
  | Call (class : nat) (body : list code)
  | Append (e : nat).

(** Returned errors: an error that belongs to a detector, whose messages may still change, or another one. *)
Inductive returned := FromDetector (d : nat) | Other (e : nat).

(** The error state: kinds for which the callback is called, the callback, which is a detector, and for each detector that
    was created so far its class and messages if it has detected something. *)
Record state := State {
  calls : kind -> bool;
  callback : option nat;
  created : nat;
  class_of : nat -> nat;
  detected : nat -> option (list nat) }.

Definition update {A} (f : nat -> A) (d : nat) (a : A) : nat -> A := fun i => if i =? d then a else f i.
(** [NumericalErrorDetector.__call__].  basics.py 702-706; messages are a set there. *)
Definition detect (st : state) (d : nat) (message : nat) : state :=
  let found := match detected st d with Some l => l | None => [] end in
  State (calls st) (callback st) (created st) (class_of st) (update (detected st) d (Some (found ++ [message]))).
(** A floating point error. *)
Definition raise (st : state) (k : kind) (message : nat) : state :=
  if calls st k then match callback st with Some d => detect st d message | None => st end else st.
(** [errstate(divide='call', over='call', under='ignore', invalid='call')] *)
Definition handler_modes (k : kind) : bool := match k with Under => false | _ => true end.
Definition without (modes ks : kind -> bool) : kind -> bool := fun k => modes k && negb (ks k).

(** Leaving a context that was entered in the state [before]: modes are restored, and with NumPy 2 (restores), the callback
    is too.  With NumPy 1, [errstate] only restores the callback if it was one of its arguments. *)
Definition leave (restores : bool) (before after : state) : state :=
  State (calls before) (if restores then callback before else callback after) (created after) (class_of after) (detected after).

Definition with_modes (st : state) (modes : kind -> bool) : state :=
  State modes (callback st) (created st) (class_of st) (detected st).
(** A new detector becomes the callback.  basics.py 681-683. *)
Definition enter (st : state) (class : nat) : state :=
  State handler_modes (Some (created st)) (S (created st)) (update (class_of st) (created st) class)
    (update (detected st) (created st) None).

Section Run.
  Variable restores : bool.
  (** Runs code in a function that has so far collected some errors.  For a call, basics.py 678-687. *)
  Fixpoint run (c : code) (st : state) (errors : list returned) : state * list returned :=
    match c with
    | Raise k m => (raise st k m, errors)
    | Append e => (st, errors ++ [Other e])
    | Ignoring ks body =>
        let fix run_all (l : list code) (st : state) (errors : list returned) :=
          match l with [] => (st, errors) | c :: l' => let (st', errors') := run c st errors in run_all l' st' errors' end in
        let (st', errors') := run_all body (with_modes st (without (calls st) ks)) errors in
        (leave restores st st', errors')
    | Call class body =>
        let fix run_all (l : list code) (st : state) (errors : list returned) :=
          match l with [] => (st, errors) | c :: l' => let (st', errors') := run c st errors in run_all l' st' errors' end in
        let d := created st in
        let (st', inner) := run_all body (enter st class) [] in
        let inner' := match detected st' d with Some _ => inner ++ [FromDetector d] | None => inner end in
        (leave restores st st', errors ++ inner')
    end.
  Fixpoint run_all (l : list code) (st : state) (errors : list returned) : state * list returned :=
    match l with [] => (st, errors) | c :: l' => let (st', errors') := run c st errors in run_all l' st' errors' end.
End Run.

(** Errors as seen after everything: numerical errors have a class and messages. *)
Inductive error := Numerical (class : nat) (messages : list nat) | OtherError (e : nat).
Definition look (st : state) (r : returned) : error :=
  match r with
  | FromDetector d => Numerical (class_of st d) (match detected st d with Some l => l | None => [] end)
  | Other e => OtherError e
  end.
(** A decorated function is called by code that does not handle numerical errors. *)
Definition initial : state := State (fun _ => false) None 0 (fun _ => 0) (fun _ => None).
Definition call_errors (restores : bool) (class : nat) (body : list code) : list error :=
  let (st, errors) := run restores (Call class body) initial [] in map (look st) errors.

(** [safely_compute_markups]: division by prices after computing costs, if these were not given, which may itself give rise
    to errors.  Elements of [(prices - costs) / prices].  economy_results_market.py 355-369; overflow is not modelled. *)
Definition divide_message := 0%nat.
Definition invalid_message := 1%nat.
Definition divide_code (numerator denominator : Q) : list code :=
  if Qeq_bool denominator 0 then
    if Qeq_bool numerator 0 then [Raise Invalid invalid_message] else [Raise Divide divide_message]
  else [].
Definition markups_code (class : nat) (costs_code : option (list code)) (costs prices : list Q) : list code :=
  match costs_code with Some body => [Call class body] | None => [] end ++
  flat_map (fun pc => divide_code (fst pc - snd pc)%Q (fst pc)) (combine prices costs).
