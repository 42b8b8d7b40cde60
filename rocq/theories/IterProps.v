(** Property theorems about fixed point iteration: C09 - C11 and C89. *)
From Coq Require Import Reals Lra Lia List Bool Arith.
From Verif Require Import Base FltModel IterModel IterSpec IterProofs IterSquarem.
Import ListNotations.
Local Open Scope nat_scope.

(** C09: for every function being iterated, simple iteration stops within its budget; the count it
    reports is the number of evaluations made; each evaluation is made at the previous values. *)
Theorem C09_simple_budget :
  forall f t M init, 1 <= M ->
  exists o, simple_iterator f t M init = Some o /\
    s_evaluations (o_st o) = length (s_log (o_st o)) /\ length (s_log (o_st o)) <= M /\
    genuine f (s_log (o_st o)) /\ chained init (s_log (o_st o)).
Proof. exact simple_budget. Qed.
Print Assumptions C09_simple_budget.

(** Convergence is reported exactly when the last evaluation is finite, its change is strictly below
    the tolerance, the returned values are what it produced, and budget was left over. *)
Theorem C09_simple_convergence_truthful :
  forall f t M init o, 1 <= M -> simple_iterator f t M init = Some o ->
  (o_converged o = true <->
   exists e l, s_log (o_st o) = e :: l /\ finite_event e /\ below_tolerance t e /\
     o_x o = fst (snd e) /\ length (s_log (o_st o)) < M).
Proof. exact simple_convergence. Qed.
Print Assumptions C09_simple_convergence_truthful.

(** It stops at the first evaluation whose change is below the tolerance. *)
Theorem C09_simple_stops_first_time :
  forall f t M init o, 1 <= M -> simple_iterator f t M init = Some o ->
  forall older e newer, s_log (o_st o) = newer ++ e :: older -> newer <> [] ->
  finite_event e /\ ~ below_tolerance t e.
Proof. exact simple_first_time. Qed.
Print Assumptions C09_simple_stops_first_time.

(** The options that are accepted are those for which convergence is possible: tolerances are not
    negative, they are not both zero, and at least one evaluation may be made. *)
Theorem C09_accepted_options :
  forall norm atol rtol M,
  valid_options (mk_tol (Num atol) (Num rtol) norm) M = true <->
  (0 <= atol /\ 0 <= rtol /\ (0 < atol \/ 0 < rtol))%R /\ 1 <= M.
Proof. intros norm at_ rt M. rewrite valid_options_iff. tauto. Qed.
Print Assumptions C09_accepted_options.

(** The 'return' method keeps starting values, whatever they are, reports convergence, and makes no evaluations. *)
Theorem C09_return_keeps_values :
  forall init, o_x (return_iterator init) = init /\ o_converged (return_iterator init) = true /\
    s_evaluations (o_st (return_iterator init)) = 0 /\ s_iterations (o_st (return_iterator init)) = 0 /\ s_log (o_st (return_iterator init)) = [].
Proof. intros init. repeat split. Qed.
Print Assumptions C09_return_keeps_values.

(** A run that converges: halving from 1 with the absolute value as norm and tolerance 2; and one
    that does not because its budget of one evaluation is exhausted. *)
Definition halve : contraction_fn := fun _ _ _ x => (map (fun a => fmul a (Num (/ 2))) x, None).
Definition head_norm (x : fvec) : flt :=
  match x with Num a :: _ => Num (Rabs a) | a :: _ => a | [] => Num 0 end.
Definition loose : tolerance := mk_tol (Num 2) (Num 0) head_norm.
Example C09_converges :
  exists o, simple_iterator halve loose 2 [Num 1] = Some o /\ o_converged o = true.
Proof.
  destruct (C09_simple_budget halve loose 2 [Num 1] ltac:(lia)) as [o [E _]].
  exists o. split; [exact E|].
  unfold simple_iterator in E. cbn [simple_loop] in E.
  unfold evaluate in E; cbn [halve st0 s_log s_iterations s_evaluations fst snd map] in E.
  unfold all_finite, vfin in E; cbn [forallb ffin fmul andb negb] in E.
  unfold termination_check, weight in E; cbn [loose t_atol t_rtol t_norm vsub vzip fsub fadd fneg head_norm fltb] in E.
  assert (A1 : rltb 0 0 = false) by (apply rltb_false; lra). rewrite A1 in E.
  assert (A2 : rltb (Rabs (1 * / 2 + - (1))) 2 = true).
  { apply rltb_true. rewrite Rabs_left; lra. }
  cbn [fltb] in E. rewrite A2 in E. cbn in E. injection E as <-. reflexivity.
Qed.

(** C10: a non-finite evaluation is the last one, is reported as non-convergence, and the values
    returned are those of the evaluation before it (or the starting values); so the values
    returned are always finite if the starting values are. *)
Theorem C10_simple_nonfinite :
  forall f t M init o, 1 <= M -> simple_iterator f t M init = Some o ->
  (forall newer e older, s_log (o_st o) = newer ++ e :: older -> ~ finite_event e ->
     newer = [] /\ o_converged o = false /\ o_x o = latest init older) /\
  (Forall (fun a => ffin a = true) init -> Forall (fun a => ffin a = true) (o_x o)).
Proof. exact simple_nonfinite. Qed.
Print Assumptions C10_simple_nonfinite.

Theorem C10_squarem_nonfinite :
  forall f t M scheme factor b init q, 1 <= M ->
  squarem_iterator f t M scheme factor b init = Some q ->
  (forall newer e older, s_log (o_st (q_out q)) = newer ++ e :: older -> ~ finite_event e ->
     newer = [] /\ o_converged (q_out q) = false /\ o_x (q_out q) = latest init older) /\
  (Forall (fun a => ffin a = true) init -> Forall (fun a => ffin a = true) (o_x (q_out q))).
Proof. exact squarem_nonfinite. Qed.
Print Assumptions C10_squarem_nonfinite.

(** For routines from SciPy, whatever they do: any non-finite evaluation is reported as
    non-convergence. *)
Theorem C10_scipy_nonfinite :
  forall f p,
  (exists e, In e (s_log (o_st (scipy_iterator f p))) /\ ~ finite_event e) ->
  o_converged (scipy_iterator f p) = false.
Proof. exact scipy_nonfinite. Qed.
Print Assumptions C10_scipy_nonfinite.

(** A function that fails at its second evaluation. *)
Definition blow_up : contraction_fn :=
  fun log _ _ x => (match log with [] => map (fadd (Num 3)) x | _ => [NaN] end, None).
Example C10_failure_returns_last_finite :
  exists o, simple_iterator blow_up loose 3 [Num 0] = Some o /\
    o_converged o = false /\ o_x o = [Num (3 + 0)] /\ length (s_log (o_st o)) = 2.
Proof.
  unfold simple_iterator. cbn [simple_loop].
  unfold evaluate; cbn [blow_up st0 s_log s_iterations s_evaluations fst snd map fadd].
  unfold all_finite, vfin; cbn [forallb ffin fmul andb negb].
  unfold termination_check, weight; cbn [loose t_atol t_rtol t_norm vsub vzip fsub fadd fneg head_norm fltb].
  assert (A1 : rltb 0 0 = false) by (apply rltb_false; lra). rewrite A1.
  assert (A2 : rltb (Rabs (3 + 0 + - 0)) 2 = false).
  { apply rltb_false. rewrite Rabs_right; lra. }
  cbn [fltb]. rewrite A2. cbn. eexists; split; [reflexivity|]. repeat split.
Qed.

(** C11: SQUAREM stops within its budget and counts truthfully ... *)
Theorem C11_squarem_budget :
  forall f t M scheme factor b init, 1 <= M ->
  exists q, squarem_iterator f t M scheme factor b init = Some q /\
    s_evaluations (o_st (q_out q)) = length (s_log (o_st (q_out q))) /\
    length (s_log (o_st (q_out q))) <= M /\ genuine f (s_log (o_st (q_out q))).
Proof. exact squarem_budget. Qed.
Print Assumptions C11_squarem_budget.

(** ... reports convergence exactly when the change made by its last evaluation is below the
    tolerance and budget is left ... *)
Theorem C11_squarem_convergence_truthful :
  forall f t M scheme factor b init q, 1 <= M ->
  squarem_iterator f t M scheme factor b init = Some q ->
  (o_converged (q_out q) = true <->
   exists e l, s_log (o_st (q_out q)) = e :: l /\ finite_event e /\ below_tolerance t e /\
     o_x (q_out q) = fst (snd e) /\ length (s_log (o_st (q_out q))) < M).
Proof. exact squarem_convergence. Qed.
Print Assumptions C11_squarem_convergence_truthful.

(** ... and, if the step factor is at least one, every step length lies within the bounds in force
    (or is NaN, when both the change and the change of changes vanish), bounds only widen, only by
    the factor, and only when the step length was at the bound. *)
Theorem C11_squarem_step_bounds :
  forall f t M scheme k lo hi init q,
  1 <= M -> (1 <= k)%R -> (0 < hi)%R -> (lo <= hi)%R ->
  squarem_iterator f t M scheme (Num k) (mk_bounds (Num lo) (Num hi)) init = Some q ->
  linked (mk_bounds (Num lo) (Num hi)) (q_steps q) /\
  Forall (fun s => exists a b a' b',
    st_before s = mk_bounds (Num a) (Num b) /\ st_after s = mk_bounds (Num a') (Num b') /\
    (a' <= a /\ a <= lo /\ hi <= b /\ b <= b' /\
    (b' = b \/ (b' = b * k /\ st_alpha s = Num (- b))) /\
    (a' = a \/ (a' = a * k /\ st_alpha s = Num (- a) /\ a < 0)) /\
    (st_alpha s = NaN \/ exists x, st_alpha s = Num x /\ a <= - x <= b))%R) (q_steps q).
Proof. exact squarem_steps. Qed.
Print Assumptions C11_squarem_step_bounds.

Example C11_defaults : (1 <= 4)%R /\ (0 < 1)%R /\ (1 <= 1)%R.
Proof. lra. Qed.

(** With an accepted step factor below one, the step length can leave the bounds in force. *)
Theorem C11_step_factor_refuted :
  exists factor b raw, valid_squarem_options 3 factor b = true /\
    let b' := update_bounds factor b (bound_alpha b raw) in
    fltb (b_max b') (fneg (bound_alpha b' raw)) = true.
Proof. exact shrinking_factor_exists. Qed.
Print Assumptions C11_step_factor_refuted.

Theorem C11_accepted_options :
  forall scheme factor lo hi,
  valid_squarem_options scheme (Num factor) (mk_bounds (Num lo) (Num hi)) = true <->
  1 <= scheme <= 3 /\ (0 < hi /\ lo <= hi /\ 0 < factor)%R.
Proof. intros scheme k lo hi. rewrite valid_squarem_iff. tauto. Qed.
Print Assumptions C11_accepted_options.

(** C89: SQUAREM evaluates the contraction at the starting values, at what this gives, and at the
    extrapolation of these three points with the step length of its scheme, truncated to the
    bounds in force; then again from what this gives. *)
Theorem C89_squarem_trajectory :
  forall f t M scheme factor b init q,
  squarem_iterator f t M scheme factor b init = Some q ->
  squared scheme init (rev (s_log (o_st (q_out q)))) (rev (q_steps q)).
Proof. exact squarem_trajectory. Qed.
Print Assumptions C89_squarem_trajectory.

(** If all coordinates approach the fixed point at the same rate, SQUAREM finds it with three
    evaluations, whatever the scheme and the rate. *)
Theorem C89_squarem_exact_on_uniform_rate :
  forall f t M scheme factor lo hi star rate a atol rtol,
  uniform_rate f star rate -> rate <> 1%R -> length a = length star ->
  scheme = 1 \/ scheme = 2 \/ (scheme = 3 /\ (rate < 1)%R) ->
  (lo <= / (1 - rate) <= hi)%R -> 4 <= M ->
  proper_norm (t_norm t) -> t_atol t = Num atol -> t_rtol t = Num rtol -> (0 < atol)%R -> (0 <= rtol)%R ->
  exists q, squarem_iterator f t M scheme factor (mk_bounds (Num lo) (Num hi)) (map Num a) = Some q /\
    o_converged (q_out q) = true /\ length (s_log (o_st (q_out q))) <= 3 /\
    (length (s_log (o_st (q_out q))) = 3 -> o_x (q_out q) = map Num star).
Proof. exact squarem_uniform. Qed.
Print Assumptions C89_squarem_exact_on_uniform_rate.

(** A two-dimensional map with rate -1/2, which simple iteration approaches only in the limit. *)
Definition two_maps : contraction_fn :=
  fun _ _ _ x => match x with
                 | [Num a; Num b] => ([Num (3 - a / 2); Num (- b / 2)], None)
                 | _ => (x, None)
                 end.
Definition max_norm (x : fvec) : flt :=
  fold_right (fun a m => fmax (match a with Num r => Num (Rabs r) | _ => a end) m) (Num 0) x.
Example C89_applies :
  uniform_rate two_maps [2; 0]%R (- / 2) /\ (- / 2 <> 1)%R /\ (1 / 10 <= / (1 - - / 2) <= 10)%R /\
  proper_norm max_norm.
Proof.
  split; [|split; [lra|split; [|]]].
  - intros log it ev a L. destruct a as [|x [|y [|]]]; try discriminate L.
    exists [3 - x / 2; - y / 2]%R. split; [reflexivity|]. split; [reflexivity|].
    intros [|[|i]] H; cbn [nth length] in *; [lra|lra|lia].
  - replace (/ (1 - - / 2))%R with (2 / 3)%R by field. lra.
  - intros l. induction l as [|a l IH].
    + exists 0%R. cbn. split; [reflexivity|]. split; [lra|reflexivity].
    + destruct IH as (r & E & P & Z). exists (Rmax (Rabs a) r).
      unfold max_norm in *. cbn [map fold_right]. rewrite E, fmax_num. split; [reflexivity|].
      split; [apply Rle_trans with r; [assumption|apply Rmax_r]|].
      intros H. rewrite (Z (fun i => H (S i))). pose proof (H 0) as H0; cbn [nth] in H0. rewrite H0.
      rewrite Rabs_R0. apply Rmax_left. lra.
Qed.
