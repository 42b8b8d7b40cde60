(** Proofs about constants of markets and absorbed fixed effects. *)
Set Warnings "-notation-overridden,-ambiguous-paths".
From mathcomp Require Import all_ssreflect all_algebra.
From Verif Require Import StatsModel SolveModel AbsorbModel AbsorbSpec AbsorbProofs.
Set Implicit Arguments.
Unset Strict Implicit.
Unset Printing Implicit Defensive.
Import GRing.Theory Num.Theory.
Local Open Scope ring_scope.

Lemma shifts_absorbed (F : realFieldType) N T K L M (A : 'M[F]_N) (market : 'I_N -> 'I_T) (X : 'M[F]_(N, K)) (theta_X : 'M[F]_(N, L))
    (theta_beta : 'cV[F]_L) (delta delta' : 'cV[F]_N) add (Z : 'M[F]_(N, M)) W C (shift : 'I_T -> F) :
  residualizes A (indicators F market) -> (forall n, delta' n 0 = delta n 0 + shift (market n)) ->
  absorbed_beta A X theta_X theta_beta delta' add Z W C = absorbed_beta A X theta_X theta_beta delta add Z W C /\
  absorbed_xi A X theta_X theta_beta delta' add Z W C = absorbed_xi A X theta_X theta_beta delta add Z W C.
Proof.
  move=> R E. have Q : delta' = delta + indicators F market *m (\col_t shift t).
  { apply/colP => n. rewrite E [RHS]mxE indicators_column mxE. by []. }
  have P : iv_delta A theta_X theta_beta delta' = iv_delta A theta_X theta_beta delta.
  { rewrite /iv_delta /absorb Q addrAC mulmxDr mulmxA (res_zero R) mul0mx addr0. by []. }
  by rewrite /absorbed_xi /absorbed_beta P.
Qed.
