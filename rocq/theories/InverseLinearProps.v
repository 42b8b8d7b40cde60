(** Property C143, continued: constants of markets and absorbed fixed effects. *)
Set Warnings "-notation-overridden,-ambiguous-paths".
From mathcomp Require Import all_ssreflect all_algebra.
From Verif Require Import AbsorbModel AbsorbSpec AbsorbProofs InverseLinear.
Set Implicit Arguments.
Unset Strict Implicit.
Unset Printing Implicit Defensive.
Import GRing.Theory Num.Theory.
Local Open Scope ring_scope.

(** If fixed effects of markets are absorbed, numbers that are added to all mean utilities of a market change neither estimates nor
    structural errors: without heterogeneity, sizes of markets do not matter. *)
Theorem C143_market_effects (F : realFieldType) N T K L M (A : 'M[F]_N) (market : 'I_N -> 'I_T) (X : 'M[F]_(N, K)) (theta_X : 'M[F]_(N, L))
    (theta_beta : 'cV[F]_L) (delta delta' : 'cV[F]_N) add (Z : 'M[F]_(N, M)) W C (shift : 'I_T -> F) :
  residualizes A (indicators F market) -> (forall n, delta' n 0 = delta n 0 + shift (market n)) ->
  absorbed_beta A X theta_X theta_beta delta' add Z W C = absorbed_beta A X theta_X theta_beta delta add Z W C /\
  absorbed_xi A X theta_X theta_beta delta' add Z W C = absorbed_xi A X theta_X theta_beta delta add Z W C.
Proof. exact: shifts_absorbed. Qed.
Print Assumptions C143_market_effects.

(** Any assignment of rows to markets can be absorbed, by subtracting averages. *)
Example C143_effects_apply (F : realFieldType) N T (market : 'I_N -> 'I_T) : residualizes (demeaning F market) (indicators F market).
Proof. exact: demeaning_residualizes. Qed.
