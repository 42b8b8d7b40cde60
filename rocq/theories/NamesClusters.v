(** Names of clusters do not matter: proofs. *)
From mathcomp Require Import all_ssreflect all_algebra.
From Verif Require Import StatsModel.
Set Implicit Arguments.
Unset Strict Implicit.
Unset Printing Implicit Defensive.
Import GRing.Theory.
Local Open Scope ring_scope.

Section Clusters.
  Variable F : realFieldType.
  (** A sum over pairs of rows in the same cluster. *)
  Lemma outer_pairs N M (T : eqType) (ids : 'I_N -> T) (g : 'M[F]_(N, M)) i j :
    outer (cluster_sum ids g) i j = \sum_n \sum_(m | ids m == ids n) g n i * g m j.
  Proof.
    rewrite /outer !mxE.
    transitivity (\sum_(c <- clusters ids) (\sum_(n | ids n == c) g n i) * (\sum_(n | ids n == c) g n j)).
    { rewrite (big_tnth _ _ (clusters ids)). apply: eq_bigr => c _. by rewrite !mxE. }
    transitivity (\sum_(c <- clusters ids) \sum_(n | ids n == c) \sum_(m | ids m == ids n) g n i * g m j).
    { apply: eq_bigr => c _. rewrite big_distrl /=. apply: eq_bigr => n /eqP ->. by rewrite big_distrr. }
    rewrite (exchange_big_dep predT) //=. apply: eq_bigr => n _.
    have In : ids n \in clusters ids by rewrite mem_undup map_f // mem_enum.
    rewrite big_mkcond (bigD1_seq (ids n)) ?undup_uniq //= eqxx [X in _ + X]big1 ?addr0 // => c C.
    by rewrite eq_sym (negbTE C).
  Qed.
  Lemma alike_clusters N M (T T' : eqType) (ids : 'I_N -> T) (ids' : 'I_N -> T') (g : 'M[F]_(N, M)) :
    (forall n m, ids n = ids m <-> ids' n = ids' m) -> outer (cluster_sum ids g) = outer (cluster_sum ids' g).
  Proof.
    move=> A. apply/matrixP => i j. rewrite !outer_pairs. apply: eq_bigr => n _. apply: eq_bigl => m.
    by apply/eqP/eqP => E; apply/A.
  Qed.
End Clusters.
