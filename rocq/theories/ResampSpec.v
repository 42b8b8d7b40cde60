(** Vocabulary for statements about simulation error.  Independent of the model of the code. *)
Set Warnings "-notation-overridden,-ambiguous-paths".
From mathcomp Require Import all_ssreflect all_algebra.
Set Implicit Arguments.
Unset Strict Implicit.
Unset Printing Implicit Defensive.
Import GRing.Theory Num.Theory.
Local Open Scope ring_scope.

Section Spec.
  Context {F : realFieldType}.
  (** Half of the average over all ordered pairs of different samples of products of their differences. *)
  Definition pairwise_covariance R (x y : 'I_R -> F) : F :=
    2%:R^-1 * ((R * R.-1)%:R^-1 * \sum_r \sum_(s | s != r) (x r - x s) * (y r - y s)).
  (** Expectations on a finite probability space. *)
  Definition expectation (Omega : finType) (p : Omega -> F) (x : Omega -> F) : F := \sum_w p w * x w.
  Definition probabilities (Omega : finType) (p : Omega -> F) : Prop := (forall w, 0 <= p w) /\ \sum_w p w = 1.
  (** Random rows r with a common mean and a common covariance matrix, that are not correlated across rows. *)
  Record uncorrelated (Omega : finType) (p : Omega -> F) R M (g : Omega -> 'I_R -> 'I_M -> F)
      (mean : 'I_M -> F) (covariances : 'I_M -> 'I_M -> F) : Prop := {
    un_mean : forall r i, expectation p (fun w => g w r i) = mean i;
    un_same : forall r i j, expectation p (fun w => (g w r i - mean i) * (g w r j - mean j)) = covariances i j;
    un_different : forall r s i j, r != s -> expectation p (fun w => (g w r i - mean i) * (g w s j - mean j)) = 0
  }.
  (** Covariances of averages of N observations, given those of their limit once scaled by the square root of N. *)
  Definition covariances_of_means M (N : nat) (S : 'M[F]_M) : 'M[F]_M := N%:R^-1 *: S.
End Spec.
