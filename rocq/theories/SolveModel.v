(** The loop over GMM steps of [Problem.solve], its initial weighting matrix, and the reduced Hessian.
    pyblp/economies/problem.py.  Matrices have elements in any real field, and arithmetic is exact.  Definitions only. *)
Set Warnings "-notation-overridden,-ambiguous-paths".
From mathcomp Require Import all_ssreflect all_algebra.
Set Implicit Arguments.
Unset Strict Implicit.
Unset Printing Implicit Defensive.
Import GRing.Theory Num.Theory.
Local Open Scope ring_scope.

(* ---------- Steps ---------- *)

(** [initial_update] after it has been validated, given whether there are micro moments and whether a weighting matrix was
    specified.  None: a ValueError.  problem.py 715-719. *)
Definition validate_initial_update (given : option bool) (micro specified : bool) : option bool :=
  match given with
  | None => Some (micro && ~~ specified)
  | Some b => if ~~ b && micro && ~~ specified then None else Some b
  end.

(** The loop.  [optimize step W theta] is what the optimization routine returns when it is started at theta, [estimate W theta] is
    everything that is computed at theta to construct results, and [updated type results] is the weighting matrix that these
    results come with.  Without parameters P to optimize over and in step zero, theta is kept.  Starting values for delta
    and costs are part of what [optimize] and [estimate] may use only if fixed points are not exact, which is not
    modelled.  problem.py 806-985. *)
Section Steps.
  Variables (Wt Theta Results WType : Type).
  Variables (P : nat) (one_step : bool).
  Variable optimize : nat -> Wt -> Theta -> Theta.
  Variable estimate : Wt -> Theta -> Results.
  Variable updated : WType -> Results -> Wt.
  Record step_results := StepResults { step_number : nat; step_W : Wt; step_theta : Theta; step_estimates : Results }.
  Definition last_step (step : nat) : bool := (step == 2%N) || (one_step && (step == 1%N)).
  (** None: the number of iterations was not enough. *)
  Fixpoint steps (n : nat) (W_type : WType) (step : nat) (W : Wt) (theta : Theta) : option step_results :=
    match n with
    | 0%N => None
    | n'.+1 =>
        let theta' := if (0 < P)%N && (0 < step)%N then optimize step W theta else theta in
        let results := estimate W theta' in
        if last_step step then Some (StepResults step W theta' results)
        else steps n' W_type step.+1 (updated W_type results) theta'
    end.
  Definition solve_steps (W_type : WType) (initial_update : bool) (W : Wt) (theta : Theta) : option step_results :=
    steps 3 W_type (if initial_update then 0 else 1)%N W theta.
End Steps.

Section Solve.
  Context {F : realFieldType}.

  (* ---------- The initial weighting matrix ---------- *)

  (** What is inverted when no weighting matrix is specified, with moments in levels.  problem.py 752-762. *)
  Definition two_stage_matrix N MD MS MC (ZD : 'M[F]_(N, MD)) (ZS : 'M[F]_(N, MS)) (ZC : 'M[F]_(N, MC)) : 'M[F]_(MD + MS + MC) :=
    block_mx (block_mx (N%:R^-1 *: (ZD^T *m ZD)) 0 0 (N%:R^-1 *: (ZS^T *m ZS))) 0 0 (N%:R^-1 *: (ZC^T *m ZC)).
  (** Matrices for the estimation of linear parameters: [X_list] and [Z_list] are stacked by [IV], which is given the block of
      the weighting matrix for demand- and supply-side moments.  problem.py 810-821 and statistics.py 22-24. *)
  Definition linear_X N K1 K3 (X1 : 'M[F]_(N, K1)) (X3 : 'M[F]_(N, K3)) : 'M[F]_(N + N, K1 + K3) := block_mx X1 0 0 X3.
  Definition linear_Z N MD MS (ZD : 'M[F]_(N, MD)) (ZS : 'M[F]_(N, MS)) : 'M[F]_(N + N, MD + MS) := block_mx ZD 0 0 ZS.
  Definition linear_W MD MS MC (W : 'M[F]_(MD + MS + MC)) : 'M[F]_(MD + MS) := ulsubmx W.

  (* ---------- The reduced Hessian ---------- *)

  (** [not lb < theta[p] < ub], where None is an infinite bound. *)
  Definition at_bound (lb ub : option F) (theta : F) : bool :=
    ~~ ((if lb is Some l then l < theta else true) && (if ub is Some u then theta < u else true)).
  (** problem.py 2353-2357 *)
  Definition reduced_hessian P (lb ub : 'I_P -> option F) (theta : 'cV[F]_P) (hessian : 'M[F]_P) : 'M[F]_P :=
    \matrix_(p, q) if at_bound (lb p) (ub p) (theta p 0) || at_bound (lb q) (ub q) (theta q 0) then 0 else hessian p q.
End Solve.
