(** Properties of the optimisation wrappers. *)
From Coq Require Import Reals List Bool Arith Lia Lra.
From Verif Require Import FltModel OptimModel OptimSpec OptimProofs.
Import ListNotations.
Local Open Scope nat_scope.

(** ** C42: answers are those of the requested vector *)

(** However a SciPy routine interleaves requests, writes to its own arrays, and iterations: each answer
    is the requested part of one evaluation at the requested vector, the evaluation that the first
    request of the current run of equal vectors caused. *)
Theorem C42_answers f memory actions : reads_gradients_only actions ->
  let '(s, answers) := run f (start memory) actions in
  answered f (requests memory 0 actions) answers.
Proof. exact (run_answered f memory actions). Qed.
Print Assumptions C42_answers.

(** When the objective depends on the parameters alone, answers are its values and gradients at the
    requested vectors. *)
Theorem C42_values (g : vec -> flt * option vec) memory actions : reads_gradients_only actions ->
  let '(s, answers) := run (fun _ _ => g) (start memory) actions in
  answers = map (fun r => part (asked r) (g (at_vector r))) (requests memory 0 actions).
Proof.
  intro H. assert (A := run_answered (fun _ _ => g) memory actions H).
  destruct (run (fun _ _ => g) (start memory) actions) as [s answers]. destruct A as [L A].
  apply (nth_ext _ _ (Value NaN) (part (asked no_request) (g (at_vector no_request)))); [rewrite map_length; exact L|].
  intros i Hi. rewrite L in Hi. destruct (A i Hi) as (j & c & _ & _ & _ & _ & E). rewrite E.
  rewrite (map_nth (fun r => part (asked r) (g (at_vector r)))). reflexivity.
Qed.
Print Assumptions C42_values.

(** The reported numbers: one evaluation per run of equal vectors, and every completed iteration. *)
Theorem C42_counts f memory actions : reads_gradients_only actions ->
  let '(s, _) := run f (start memory) actions in
  let log := requests memory 0 actions in
  runs log (List.length log) (snd (solver_stats s)) /\ fst (solver_stats s) = ticks_in actions.
Proof. exact (run_stats f memory actions). Qed.
Print Assumptions C42_counts.

(** Knitro, either interface: the same, with answers clipped to the largest machine integer. *)
Theorem C42_knitro f limit both memory actions : (0 <= limit)%R ->
  let '(s, answers) := knitro_run f limit both (knitro_start memory) actions in
  let log := knitro_requests both memory 0 0 actions in
  knitro_answered limit f log answers /\ runs log (List.length log) (snd (solver_stats (base s))).
Proof. exact (knitro_run_answered f limit both memory actions). Qed.
Print Assumptions C42_knitro.

(** The guard is needed: gradients are handed out by reference, so a routine that scales its gradient
    in place and asks for it again at the same vector is given the scaled one. *)
Theorem C42_overwritten : exists (g : vec -> flt * option vec) actions,
  let '(s, answers) := run (fun _ _ => g) (start (fun _ => [Num 1])) actions in
  answers <> map (fun r => part (asked r) (g (at_vector r))) (requests (fun _ => [Num 1]) 0 actions).
Proof.
  exists (fun v => (Num 0, Some [Num 5])), [Ask Gradient 0; Overwrite 1 [Num 7]; Ask Gradient 0].
  cbn. unfold refresh. cbn. unfold reqb. destruct (Req_EM_T 1 1) as [_|N]; [|exfalso; apply N; reflexivity]. cbn.
  intro E. injection E as E. lra.
Qed.
Print Assumptions C42_overwritten.

(** Two requests at one vector, an in-place change of the same array, and a third request: two
    evaluations, and the third answer is not the cached one. *)
Example C42_applies :
  let actions := [Ask Objective 0; Tick; Ask Gradient 0; Write 0 [Num 2]; Ask Objective 0] in
  let f := fun (i e : nat) (v : vec) => (nth 0 v NaN, Some [Num (INR e)]) in
  reads_gradients_only actions /\
  (let '(s, answers) := run f (start (fun _ => [Num 1])) actions in
   answers = [Value (Num 1); Slope (Some [Num 1]); Value (Num 2)] /\ solver_stats s = (1, 2)) /\
  knitro_requests false (fun _ => [Num 1]) 0 0 [KReach 3; KAsk Gradient 0; KAsk Objective 0] =
    [Request Gradient [Num 1] 0; Request Objective [Num 1] 3].
Proof.
  cbv zeta. split; [intros e v [H|[H|[H|[H|[H|[]]]]]]; discriminate|]. split.
  - cbn. unfold refresh. cbn. unfold reqb. destruct (Req_EM_T 1 1) as [_|N]; [|exfalso; apply N; reflexivity]. cbn.
    unfold reqb. destruct (Req_EM_T 2 1) as [N|_]; [exfalso; lra|]. cbn. auto.
  - reflexivity.
Qed.
