(** Theorem about names of clusters: C147. *)
From mathcomp Require Import all_ssreflect all_algebra.
From Verif Require Import StatsModel NamesClusters.
Set Implicit Arguments.
Unset Strict Implicit.
Unset Printing Implicit Defensive.
Local Open Scope ring_scope.

(** Names of clusters leave moment covariances as they are. *)
Theorem C147_clusters (F : realFieldType) E N (q : 'I_E -> nat) (u : 'I_E -> 'cV[F]_N) (Z : forall e, 'M[F]_(N, q e)) (T T' : eqType)
    (ids : 'I_N -> T) (ids' : 'I_N -> T') center :
  (forall n m, ids n = ids m <-> ids' n = ids' m) ->
  moment_covariances u Z (Clustered ids) center = moment_covariances u Z (Clustered ids') center.
Proof. by move=> A; rewrite /moment_covariances (alike_clusters _ A). Qed.
Print Assumptions C147_clusters.

Example C147_clusters_applies : let ids (n : 'I_3) := (n < 2)%N in let ids' (n : 'I_3) := if (n < 2)%N then 7%N else 4%N in
  (forall n m, ids n = ids m <-> ids' n = ids' m) /\ ids (inord 0) <> ids (inord 2).
Proof. split; [|by rewrite !inordK]. by move=> n m /=; case: (n < 2)%N; case: (m < 2)%N. Qed.
