(** Resampling of agents and its contribution to moment covariances.  pyblp/economies/problem.py [_compute_progress] and
    pyblp/results/problem_results.py [_compute_S].  Matrices have elements in any real field, and arithmetic is exact.
    Definitions only. *)
Set Warnings "-notation-overridden,-ambiguous-paths".
From mathcomp Require Import all_ssreflect all_algebra.
From Verif Require Import StatsModel.
Set Implicit Arguments.
Unset Strict Implicit.
Unset Printing Implicit Defensive.
Import GRing.Theory Num.Theory.
Local Open Scope ring_scope.

(** What a call of a user's function [resample_agent_data] does: it gives agents, None, or raises an exception. *)
Inductive resampled (A : Type) := Resampled (a : A) | Stop | Raises.
Arguments Stop {A}. Arguments Raises {A}.
(** Moments of resampled agents, or why there are none. *)
Inductive sampling (G : Type) := Samples (l : seq G) | TooFew | RuntimeError.
Arguments TooFew {G}. Arguments RuntimeError {G}.

Section Resample.
  Variables (A G : Type) (resample : nat -> resampled A) (valid : A -> bool) (moments : A -> G).
  (** The loop.  problem.py 1605-1645.  Users' functions need not ever stop, so that a number of rounds is given; None: the
      loop is still running.  [valid]: Agents accepts the data.  Evaluation of moments is [moments]; errors that it
      raises itself are not modelled. *)
  Fixpoint loop (rounds : nat) (done : seq G) : option (sampling G) :=
    match rounds with
    | 0%N => None
    | rounds'.+1 =>
        match resample (size done) with
        | Raises => Some RuntimeError
        | Stop => Some (if (size done < 2)%N then TooFew else Samples done)
        | Resampled a => if valid a then loop rounds' (rcons done (moments a)) else Some RuntimeError
        end
    end.
End Resample.

Section Covariances.
  Context {F : realFieldType}.
  (** [np.cov(mean_g_samples, rowvar=False)], where each of R rows has M moments.  problem.py 1653. *)
  Definition np_cov R M (g : 'M[F]_(R, M)) : 'M[F]_M := (R.-1)%:R^-1 *: outer (centered g).
  (** [_compute_S], given covariances of aggregate moments and micro covariances.  problem_results.py 751-757. *)
  Definition compute_S M MM (N : nat) (aggregate : 'M[F]_M) (micro : 'M[F]_MM) (simulation : 'M[F]_(M + MM)) : 'M[F]_(M + MM) :=
    block_mx aggregate 0 0 (N%:R *: micro) + simulation.
  (** Without [resample_agent_data], [np.zeros].  problem.py 1602. *)
  Definition no_simulation M : 'M[F]_M := 0.
  (** Rows of samples. *)
  Definition rows_of M (l : seq 'rV[F]_M) : 'M[F]_(size l, M) := \matrix_(r, i) nth 0 l r 0 i.
End Covariances.
