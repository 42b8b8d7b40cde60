(** C171: how many draws are effective at least. *)
From Coq Require Import Reals Lra Lia List Arith.
From Verif Require Import Base SchedModel DiagModel DiagSpec DiagProofs DiagRange.
Import ListNotations.
Local Open Scope R_scope.

(** Weights of sampled agents are inverse to their probabilities of choosing an inside good.  With probabilities between [lo] and [hi], whatever the inside share and the number of draws, a share of at least 4 lo hi / (lo + hi)^2 of draws is effective. *)
Theorem C171_range (share lo hi : R) (probabilities : list R) : probabilities <> [] -> 0 < share -> 0 < lo -> (forall p, In p probabilities -> lo <= p <= hi) ->
  let draws := INR (List.length probabilities) in
  4 * lo * hi / (lo + hi) ^ 2 * draws <= effective_draws (map (fun p => share / (p * draws)) probabilities) <= draws.
Proof.
  intros N S A H draws. assert (B : 0 < hi) by (destruct probabilities as [|x w]; [contradiction N; reflexivity|]; specialize (H x (or_introl eq_refl)); lra).
  assert (D : 0 < draws) by (apply length_pos, N). set (f := fun p => share / (p * draws)).
  assert (Nf : map f probabilities <> []) by (destruct probabilities; [contradiction N; reflexivity|discriminate]).
  assert (F : forall x, In x (map f probabilities) -> share / (hi * draws) <= x <= share / (lo * draws)).
  { intros x I. apply in_map_iff in I. destruct I as (p & <- & Hp). specialize (H p Hp). unfold f.
    assert (X : forall u v, 0 < u -> u <= v -> share / (v * draws) <= share / (u * draws)).
    { intros u v U L. unfold Rdiv. apply Rmult_le_compat_l; [lra|]. apply Rinv_le_contravar; [apply Rmult_lt_0_compat; lra|apply Rmult_le_compat_r; lra]. }
    split; apply X; lra. }
  assert (A' : 0 < share / (hi * draws)) by (apply Rdiv_lt_0_compat; [exact S|apply Rmult_lt_0_compat; lra]).
  split.
  - assert (K := kantorovich _ _ _ Nf A' F). rewrite map_length in K. fold draws in K.
    replace (4 * lo * hi / (lo + hi) ^ 2) with (4 * (share / (hi * draws)) * (share / (lo * draws)) / (share / (hi * draws) + share / (lo * draws)) ^ 2); [exact K|].
    assert (SL : 0 < share * lo) by (apply Rmult_lt_0_compat; assumption). assert (SH : 0 < share * hi) by (apply Rmult_lt_0_compat; assumption). field. repeat split; lra.
  - replace draws with (INR (List.length (map f probabilities))) by (rewrite map_length; reflexivity). apply chain; [exact Nf|]. intros x I. specialize (F x I). lra.
Qed.
Print Assumptions C171_range.

(** Probabilities of 1/4 and 1/2. *)
Example C171_range_applies : (forall p, In p [1 / 4; 1 / 2] -> 1 / 4 <= p <= 1 / 2) /\ 4 * (1 / 4) * (1 / 2) / (1 / 4 + 1 / 2) ^ 2 = 8 / 9.
Proof. split; [intros p [<-|[<-|[]]]; lra|field]. Qed.
