(** How many candidates are accepted by importance sampling. *)
From Coq Require Import Reals Lra Lia List Bool Arith FunctionalExtensionality.
From Verif Require Import Base SchedModel ImpSpec ImpProofs.
Import ListNotations.
Local Open Scope R_scope.

(** The mean of [c] of a binomial number with [N] trials and probability [p]. *)
Definition binomial_mean (p : R) (N : nat) (c : nat -> R) : R := sumn (S N) (fun k => C N k * p ^ k * (1 - p) ^ (N - k) * c k).

Lemma C_first n : C n 0 = 1.
Proof. unfold C. rewrite Nat.sub_0_r. cbn [fact INR]. field. apply INR_fact_neq_0. Qed.
Lemma C_last n : C n n = 1.
Proof. unfold C. rewrite Nat.sub_diag. cbn [fact INR]. field. apply INR_fact_neq_0. Qed.
Lemma binomial_step p N c : binomial_mean p (S N) c = p * binomial_mean p N (fun k => c (S k)) + (1 - p) * binomial_mean p N c.
Proof.
  unfold binomial_mean. rewrite (sumn_S (S N)). cbn [sumn]. rewrite !C_last, !Nat.sub_diag.
  rewrite (sumn_ext N (fun i => C (S N) (S i) * p ^ S i * (1 - p) ^ (S N - S i) * c (S i))
    (fun i => p * (C N i * p ^ i * (1 - p) ^ (N - i) * c (S i)) + (1 - p) * (C N (S i) * p ^ S i * (1 - p) ^ (N - S i) * c (S i)))).
  - rewrite sumn_plus, !sumn_scal. destruct N as [|N].
    + cbn [sumn]. rewrite C_first. cbn [pow Nat.sub]. ring.
    + cbn [sumn]. rewrite C_last, Nat.sub_diag.
      assert (E : sumn (S N) (fun k => C (S N) k * p ^ k * (1 - p) ^ (S N - k) * c k) = C (S N) 0 * p ^ 0 * (1 - p) ^ (S N) * c 0%nat + sumn N (fun i => C (S N) (S i) * p ^ S i * (1 - p) ^ (S N - S i) * c (S i))) by (rewrite sumn_S; reflexivity).
      cbn [sumn] in E. rewrite !C_first in *. change ((1 - p) ^ (S (S N) - 0)) with ((1 - p) * (1 - p) ^ S N).
      set (a := sumn N (fun k => C (S N) k * p ^ k * (1 - p) ^ (S N - k) * c k)) in *. set (b := sumn N (fun i => C (S N) (S i) * p ^ S i * (1 - p) ^ (S N - S i) * c (S i))) in *. rewrite !Rmult_plus_distr_l.
      replace (a + C (S N) N * p ^ N * (1 - p) ^ (S N - N) * c N) with (1 * p ^ 0 * (1 - p) ^ S N * c 0%nat + b) by (symmetry; exact E) || idtac.
      assert (E2 : (1 - p) * (a + C (S N) N * p ^ N * (1 - p) ^ (S N - N) * c N) = (1 - p) * (1 * p ^ 0 * (1 - p) ^ S N * c 0%nat + b)) by (rewrite E; reflexivity).
      cbn [pow] in *. lra.
  - intros i Hi. rewrite <- (pascal N i Hi). replace (S N - S i)%nat with (N - i)%nat by lia. replace (N - i)%nat with (S (N - S i)) by lia. cbn [pow]. ring.
Qed.

Section Count.
  Variables (numbers : R -> Prop) (U : (R -> R) -> R) (n : nat) (f a : nat -> R).
  Hypothesis HU : uniform_law numbers U.
  Hypothesis Ha : forall x, (x < n)%nat -> numbers (a x).
  Hypothesis Hf : sumn n f = 1.
  Lemma count_mean N : forall c, candidates_mean U n f N (fun xs us => c (accepted_count a xs us)) = binomial_mean (sumn n (fun x => f x * a x)) N c.
  Proof using HU Ha Hf.
    induction N as [|N IH]; intro c.
    - unfold binomial_mean. cbn [candidates_mean accepted_count sumn]. rewrite C_first. cbn [pow Nat.sub]. ring.
    - rewrite binomial_step, <- !IH. cbn [candidates_mean]. set (A := candidates_mean U n f N (fun xs us => c (S (accepted_count a xs us)))). set (B := candidates_mean U n f N (fun xs us => c (accepted_count a xs us))).
      rewrite (sumn_ext n _ (fun x => f x * a x * A + (f x * B - f x * a x * B))).
      + rewrite sumn_plus, sumn_minus, !sumn_scal_r, Hf. ring.
      + intros x Hx. replace (fun u => candidates_mean U n f N (fun xs us => c (accepted_count a (x :: xs) (u :: us)))) with (fun u => if Rlt_dec u (a x) then A else B).
        * rewrite (U_cases numbers U HU (a x) A B (Ha x Hx)). ring.
        * apply functional_extensionality. intro u. cbn [accepted_count]. destruct (Rlt_dec u (a x)); reflexivity.
  Qed.
  Lemma count_expected N : candidates_mean U n f N (fun xs us => INR (accepted_count a xs us)) = INR N * sumn n (fun x => f x * a x).
  Proof using HU Ha Hf.
    induction N as [|N IH]; [cbn; ring|]. set (p := sumn n (fun x => f x * a x)) in *. rewrite (count_mean (S N) INR), binomial_step. fold p. rewrite <- !(count_mean N) in *. fold p.
    assert (E1 : candidates_mean U n f N (fun xs us => INR (S (accepted_count a xs us))) = candidates_mean U n f N (fun xs us => INR (accepted_count a xs us)) + 1).
    { assert (T : candidates_mean U n f N (fun _ _ => 1) = 1).
      { clear - HU Hf. induction N as [|N IH]; [reflexivity|]. cbn [candidates_mean]. rewrite IH, (law_total _ _ HU). rewrite (sumn_ext n _ f) by (intros; ring). exact Hf. }
      rewrite <- T at 1. rewrite <- (CM_plus numbers U n f HU). apply CM_ext. intros xs us _ _. rewrite S_INR. ring. }
    rewrite E1, IH, S_INR. ring.
  Qed.
End Count.
