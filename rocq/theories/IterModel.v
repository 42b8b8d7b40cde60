(** Model of fixed point iteration: /repo/pyblp/configurations/iteration.py.  Definitions only. *)
From Coq Require Import Reals List Bool Arith.
From Verif Require Import FltModel.
Import ListNotations.

(** What evaluating the contraction returns: new values and optional norm weights.
    The Jacobian, which simple_iterator and squarem_iterator ignore, is left out. *)
Definition result := (fvec * option fvec)%type.

(** One past evaluation: its argument and what it returned. *)
Definition event := (fvec * result)%type.

(** The function to be iterated.  It is given the counters of major iterations and evaluations, as
    in the code (iteration.py 281), and may be stateful (the contraction in market.py updates
    clipped shares, for example): its result may depend on all past evaluations, newest first. *)
Definition contraction_fn := list event -> nat -> nat -> fvec -> result.

(** Counters of [_iterate] (262-267) and the log of evaluations so far, newest first.
    The log is not in the code; it is what an observer of the contraction would see. *)
Record st := mk_st { s_iterations : nat; s_evaluations : nat; s_log : list event }.
Definition st0 : st := mk_st 0 0 [].

(** [contraction_wrapper].  iteration.py 269-286; reshaping and type conversions are left out. *)
Definition evaluate (f : contraction_fn) (s : st) (x : fvec) : fvec * option fvec * st :=
  let ev := S (s_evaluations s) in
  let r := f (s_log s) (s_iterations s) ev x in
  (fst r, snd r, mk_st (s_iterations s) ev ((x, r) :: s_log s)).

(** [iteration_callback].  iteration.py 264-267. *)
Definition callback (s : st) : st := mk_st (S (s_iterations s)) (s_evaluations s) (s_log s).

(** [all_finite(x, weights)].  iteration.py 486-488. *)
Definition all_finite (x : fvec) (w : option fvec) : bool :=
  vfin x && match w with None => true | Some v => vfin v end.

(** [weight].  iteration.py 501-505. *)
Definition weight (x : fvec) (w : option fvec) : fvec :=
  match w with None => x | Some v => vzip fmul v x end.

Record tolerance := mk_tol { t_atol : flt; t_rtol : flt; t_norm : fvec -> flt }.

(** [termination_check].  iteration.py 491-498. *)
Definition termination_check (t : tolerance) (x residual : fvec) (w : option fvec) : bool :=
  let tol := if fltb (Num 0) (t_rtol t)
             then fadd (t_atol t) (fmul (t_rtol t) (t_norm t (weight x w)))
             else t_atol t in
  fltb (t_norm t (weight residual w)) tol.

(** What a routine returns: final values, the convergence flag, and the final counters. *)
Record outcome := mk_out { o_x : fvec; o_converged : bool; o_st : st }.

(** [simple_iterator].  iteration.py 369-400.  The fuel bounds the while loop; None means that it
    ran out, which is proved to be impossible with max_evaluations fuel. *)
Fixpoint simple_loop (fuel : nat) (f : contraction_fn) (t : tolerance) (max_evaluations : nat)
    (x0 : fvec) (evaluations : nat) (s : st) : option outcome :=
  match fuel with
  | O => None
  | S fuel' =>
      let '(x, w, s1) := evaluate f s x0 in
      if negb (all_finite x w) then Some (mk_out x0 false s1)
      else
        let s2 := callback s1 in
        let evaluations := S evaluations in
        if (max_evaluations <=? evaluations) || termination_check t x (vsub x x0) w
        then Some (mk_out x (evaluations <? max_evaluations) s2)
        else simple_loop fuel' f t max_evaluations x evaluations s2
  end.

Definition simple_iterator (f : contraction_fn) (t : tolerance) (max_evaluations : nat)
    (initial : fvec) : option outcome :=
  simple_loop max_evaluations f t max_evaluations initial 0 st0.

(** [return_iterator].  iteration.py 302-305. *)
Definition return_iterator (initial : fvec) : outcome := mk_out initial true st0.

(** Step length options of SQUAREM. *)
Record bounds := mk_bounds { b_min : flt; b_max : flt }.

(** The unbounded step length.  iteration.py 447-457.  [np.squeeze] is the identity on scalars. *)
Definition raw_alpha (scheme : nat) (r v : fvec) : flt :=
  match scheme with
  | 1%nat => fdiv (vdot r v) (vdot v v)
  | 2%nat => fdiv (vdot r r) (vdot r v)
  | _ => fneg (fsqrt (fdiv (vdot r r) (vdot v v)))
  end.

(** Line 460: the bounded step length alpha. *)
Definition bound_alpha (b : bounds) (alpha : flt) : flt :=
  fneg (fmax (b_min b) (fmin (b_max b) (fneg alpha))).

(** Lines 461-464: the bounds are updated, the maximum first. *)
Definition update_bounds (factor : flt) (b : bounds) (alpha : flt) : bounds :=
  let mx := if feqb (fneg alpha) (b_max b) then fmul (b_max b) factor else b_max b in
  let mn := if feqb (fneg alpha) (b_min b) && fltb (b_min b) (Num 0)
            then fmul (b_min b) factor else b_min b in
  mk_bounds mn mx.

(** Line 467: x0 - 2 * alpha * r + alpha**2 * v *)
Definition accelerate (alpha : flt) (x0 r v : fvec) : fvec :=
  vzip fadd (vzip fsub x0 (map (fmul (fmul (Num 2) alpha)) r)) (map (fmul (fmul alpha alpha)) v).

(** A record of one acceleration step: bounds in force, the step length used, bounds afterwards.
    Like the log, it is not in the code; it is used to state what steps were taken. *)
Record step := mk_step { st_before : bounds; st_alpha : flt; st_after : bounds }.

Record sq_outcome := mk_sq { q_out : outcome; q_steps : list step }.

(** [squarem_iterator].  iteration.py 403-483. *)
Fixpoint squarem_loop (fuel : nat) (f : contraction_fn) (t : tolerance) (max_evaluations : nat)
    (scheme : nat) (factor : flt) (b : bounds) (x0 : fvec) (evaluations : nat) (s : st)
    (steps : list step) : option sq_outcome :=
  match fuel with
  | O => None
  | S fuel' =>
      (* first step *)
      let '(x1, w1, s1) := evaluate f s x0 in
      if negb (all_finite x1 w1) then Some (mk_sq (mk_out x0 false s1) steps)
      else
      let g0 := vsub x1 x0 in
      let ev1 := S evaluations in
      if (max_evaluations <=? ev1) || termination_check t x1 g0 w1
      then Some (mk_sq (mk_out x1 (ev1 <? max_evaluations) s1) steps)
      else
      (* second step *)
      let '(x2, w2, s2) := evaluate f s1 x1 in
      if negb (all_finite x2 w2) then Some (mk_sq (mk_out x1 false s2) steps)
      else
      let g1 := vsub x2 x1 in
      let ev2 := S ev1 in
      if (max_evaluations <=? ev2) || termination_check t x2 g1 w2
      then Some (mk_sq (mk_out x2 (ev2 <? max_evaluations) s2) steps)
      else
      (* step length *)
      let r := g0 in
      let v := vsub g1 g0 in
      let alpha := bound_alpha b (raw_alpha scheme r v) in
      let b' := update_bounds factor b alpha in
      let steps' := mk_step b alpha b' :: steps in
      (* acceleration step *)
      let x3 := accelerate alpha x0 r v in
      let '(x4, w4, s4) := evaluate f s2 x3 in
      if negb (all_finite x4 w4) then Some (mk_sq (mk_out x2 false s4) steps')
      else
      let s5 := callback s4 in
      let ev3 := S ev2 in
      if (max_evaluations <=? ev3) || termination_check t x4 (vsub x4 x3) w4
      then Some (mk_sq (mk_out x4 (ev3 <? max_evaluations) s5) steps')
      else squarem_loop fuel' f t max_evaluations scheme factor b' x4 ev3 s5 steps'
  end.

Definition squarem_iterator (f : contraction_fn) (t : tolerance) (max_evaluations scheme : nat)
    (factor : flt) (b : bounds) (initial : fvec) : option sq_outcome :=
  squarem_loop max_evaluations f t max_evaluations scheme factor b initial 0 st0 [].

(** Validation of the options of 'simple' and 'squarem'.  iteration.py 229-251, without type
    checks. *)
Definition valid_options (t : tolerance) (max_evaluations : nat) : bool :=
  negb (fltb (t_atol t) (Num 0)) && negb (fltb (t_rtol t) (Num 0))
  && negb (feqb (t_atol t) (Num 0) && feqb (t_rtol t) (Num 0))
  && negb (max_evaluations <? 1).

Definition valid_squarem_options (scheme : nat) (factor : flt) (b : bounds) : bool :=
  ((scheme =? 1) || (scheme =? 2) || (scheme =? 3))
  && negb (fleb (b_max b) (Num 0)) && negb (fltb (b_max b) (b_min b)) && negb (fleb factor (Num 0)).

(** [scipy_iterator].  iteration.py 308-366.  SciPy's root finder is a decision tree: it asks for
    residuals at points of its choice, depending on all answers so far, and finally returns a
    point and a success flag.  Jacobians are left out (compute_jacobian=False). *)
Inductive solver := Done (x : fvec) (success : bool) | Ask (x : fvec) (k : fvec -> solver).

(** Lines 335-361: the residual x0 - x that is shown to SciPy, where non-finite evaluations are
    replaced by x0 and recorded in [failed]. *)
Fixpoint scipy_run (f : contraction_fn) (p : solver) (failed : bool) (s : st) : outcome :=
  match p with
  | Done x success => mk_out x (negb failed && success) s
  | Ask x0 k =>
      let '(x, w, s1) := evaluate f s x0 in
      let ok := all_finite x w in
      let x := if ok then x else x0 in
      scipy_run f (k (vsub x0 x)) (failed || negb ok) s1
  end.

Definition scipy_iterator (f : contraction_fn) (p : solver) : outcome := scipy_run f p false st0.
