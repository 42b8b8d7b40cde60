(** Property of the detection of numerical errors: C102. *)
From Coq Require Import List Arith Bool QArith.
From Verif Require Import FaultModel FaultSpec FaultProofs.
Import ListNotations.
Open Scope nat_scope.

(* ---------- C102 ---------- *)

(** If callbacks are restored (NumPy 2), each function reports exactly one error with all of its messages that are not
    ignored, after errors of functions it calls.  The same holds without this if no message follows a nested call. *)
Theorem C102_exact restores class body : restores = true \/ settled_calls (Call class body) ->
  call_errors restores class body = expected (Call class body).
Proof. exact (call_errors_expected restores class body). Qed.
Print Assumptions C102_exact.

(** So whatever is raised is then reported. *)
Theorem C102_complete restores class body m : restores = true \/ settled_calls (Call class body) ->
  raised (fun _ => false) (Call class body) m -> reported (call_errors restores class body) m.
Proof. intros S H. rewrite call_errors_expected by exact S. exact (raised_expected class body m H). Qed.
Print Assumptions C102_complete.

(** Nothing is reported that was not raised, whether or not callbacks are restored. *)
Theorem C102_sound restores class body m : reported (call_errors restores class body) m -> raised (fun _ => false) (Call class body) m.
Proof. exact (reported_raised restores class body m). Qed.
Print Assumptions C102_sound.

(** If callbacks are not restored (NumPy 1), messages after a nested call go to the error of the called function, and are lost if
    it had reported none. *)
Theorem C102_taken class inner_class inner rest :
  ~ In Nested (own_events inner) -> fold_right (fun c p => settled_calls c /\ p) True inner ->
  ~ In Nested (own_events rest) -> fold_right (fun c p => settled_calls c /\ p) True rest ->
  call_errors false class (Call inner_class inner :: rest) =
  flat_map expected inner ++
  match messages (own_events inner) with [] => [] | l => [Numerical inner_class (l ++ messages (own_events rest))] end ++
  flat_map expected rest.
Proof. exact (taken class inner_class inner rest). Qed.
Print Assumptions C102_taken.

(** Markups: an error is reported exactly if some price is zero, if costs are given or callbacks are restored. *)
Theorem C102_markups class body costs prices :
  (forall restores, call_errors restores class (markups_code class None costs prices) <> [] <->
   exists p c, In (p, c) (combine prices costs) /\ (p == 0)%Q) /\
  (expected (Call class body) = [] ->
   (call_errors true class (markups_code class (Some body) costs prices) <> [] <->
    exists p c, In (p, c) (combine prices costs) /\ (p == 0)%Q)).
Proof. split; [intros r; exact (markups_given r class costs prices)|exact (markups_restored class body costs prices)]. Qed.
Print Assumptions C102_markups.

(** With NumPy 1 and costs that are computed without errors, none is reported, whatever prices are. *)
Theorem C102_markups_refuted class body costs prices :
  ~ In Nested (own_events body) -> fold_right (fun c p => settled_calls c /\ p) True body -> expected (Call class body) = [] ->
  call_errors false class (markups_code class (Some body) costs prices) = [].
Proof. exact (markups_lost class body costs prices). Qed.
Print Assumptions C102_markups_refuted.

(** A function that ignores a division, calls another one, which overflows, and does nothing after that; and computing
    markups with a price of zero after costs that give no errors. *)
Example C102_applies :
  settled_calls (Call 3 [Raise Invalid 5; Ignoring (fun _ => true) [Raise Divide 6]; Call 4 [Raise Over 7]; Append 8]) /\
  call_errors false 3 [Raise Invalid 5; Ignoring (fun _ => true) [Raise Divide 6]; Call 4 [Raise Over 7]; Append 8] =
    [Numerical 4 [7]; OtherError 8; Numerical 3 [5]] /\
  raised (fun _ => false) (Call 3 [Raise Invalid 5; Call 4 [Raise Over 7]]) 7 /\
  (~ In Nested (own_events [Ignoring (fun _ => true) [Raise Divide 6]]) /\
   fold_right (fun c p => settled_calls c /\ p) True [Ignoring (fun _ => true) [Raise Divide 6]] /\
   expected (Call 3 [Ignoring (fun _ => true) [Raise Divide 6]]) = []) /\
  raised (fun _ => false) (Call 3 (markups_code 3 (Some []) [1%Q] [0%Q])) divide_message /\
  ~ reported (call_errors false 3 (markups_code 3 (Some []) [1%Q] [0%Q])) divide_message /\
  reported (call_errors true 3 (markups_code 3 (Some []) [1%Q] [0%Q])) divide_message.
Proof.
  repeat split; cbn; auto.
  - intros before after E. destruct before as [|x before]; [discriminate E|]. injection E as _ E.
    destruct before as [|y before]; [injection E as <-; reflexivity|]. destruct before; discriminate E.
  - intros before after E. destruct before as [|x before]; [discriminate E|]. destruct before; discriminate E.
  - right. left. left. repeat split; congruence.
  - right. left. repeat split; congruence.
  - intros (c & ms & [] & _).
  - exists 3, [divide_message]. split; [left; reflexivity|left; reflexivity].
Qed.
