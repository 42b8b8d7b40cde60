(** Limits superior of bounded sequences, and exponential inequalities. *)
From Coq Require Import Reals Lra Lia List Bool Arith Classical.
From Verif Require Import Base.
Local Open Scope R_scope.

Definition eventually (P : nat -> Prop) : Prop := exists N, forall n, (N <= n)%nat -> P n.
Definition frequently (P : nat -> Prop) : Prop := forall N, exists n, (N <= n)%nat /\ P n.

Lemma eventually_and P Q : eventually P -> eventually Q -> eventually (fun n => P n /\ Q n).
Proof. intros [N H] [M K]. exists (Nat.max N M). intros n Hn. split; [apply H|apply K]; lia. Qed.

Lemma eventually_imp (P Q : nat -> Prop) : (forall n, P n -> Q n) -> eventually P -> eventually Q.
Proof. intros I [N H]. exists N. intros n Hn. apply I, H; assumption. Qed.

Lemma eventually_all J (P : nat -> nat -> Prop) : (forall j, (j < J)%nat -> eventually (P j)) ->
  eventually (fun n => forall j, (j < J)%nat -> P j n).
Proof.
  induction J as [|J IH]; intros H.
  - exists O. intros n _ j Hj. lia.
  - destruct (eventually_and _ _ (IH (fun j Hj => H j (Nat.lt_lt_succ_r _ _ Hj))) (H J (Nat.lt_succ_diag_r J))) as [N HN].
    exists N. intros n Hn j Hj. destruct (HN n Hn) as [A B].
    destruct (Nat.eq_dec j J) as [->|]; [exact B|apply A; lia].
Qed.

Lemma frequently_and P Q : frequently P -> eventually Q -> frequently (fun n => P n /\ Q n).
Proof.
  intros F [N H] M. destruct (F (Nat.max N M)) as [n [Hn Pn]]. exists n. split; [lia|]. split; [assumption|apply H; lia].
Qed.

Definition limsup (u : nat -> R) (l : R) : Prop :=
  (forall e, 0 < e -> eventually (fun n => u n <= l + e)) /\ (forall e, 0 < e -> frequently (fun n => l - e <= u n)).

Lemma limsup_exists u lo hi : eventually (fun n => lo <= u n <= hi) -> exists l, limsup u l /\ lo <= l <= hi.
Proof.
  intros [N HN].
  set (A := fun c => exists M, forall n, (M <= n)%nat -> u n <= - c).
  destruct (completeness A) as [s [Hub Hlub]].
  - exists (- lo). intros c [M HM]. specialize (HM (Nat.max M N) ltac:(lia)). specialize (HN (Nat.max M N) ltac:(lia)). lra.
  - exists (- hi). exists N. intros n Hn. specialize (HN n Hn). lra.
  - exists (- s). split; [split|].
    + intros e He. apply NNPP. intros C.
      assert (s <= s - e); [|lra]. apply Hlub. intros c [M HM].
      destruct (Rle_lt_dec c (s - e)) as [L|L]; [assumption|]. exfalso. apply C. exists M. intros n Hn.
      specialize (HM n Hn). lra.
    + intros e He M. apply NNPP. intros C.
      assert (X : A (s + e)).
      { exists M. intros n Hn. apply Rnot_lt_le. intros L. apply C. exists n. split; [assumption|]. lra. }
      apply Hub in X. lra.
    + split.
      * assert (s <= - lo); [|lra]. apply Hlub. intros c [M HM].
        specialize (HM (Nat.max M N) ltac:(lia)). specialize (HN (Nat.max M N) ltac:(lia)). lra.
      * assert (A (- hi)); [|apply Hub in H; lra]. exists N. intros n Hn. specialize (HN n Hn). lra.
Qed.

Lemma limsup_unique u v l k : eventually (fun n => u n = v n) -> limsup u l -> limsup v k -> l = k.
Proof.
  assert (G : forall u v l k, eventually (fun n => u n = v n) -> limsup u l -> limsup v k -> l <= k).
  { clear. intros u v l k E [_ Fu] [Ev _]. apply le_epsilon. intros e He.
    destruct (frequently_and _ _ (Fu (e / 2) ltac:(lra)) (eventually_and _ _ E (Ev (e / 2) ltac:(lra))) O) as [n [_ [A [B C]]]].
    rewrite B in A. lra. }
  intros E U V. apply Rle_antisym; [apply (G u v); assumption|apply (G v u); try assumption].
  eapply eventually_imp; [|exact E]. intros n H. symmetry. exact H.
Qed.

(** From the right. *)
Lemma right_limit f c : continuity_pt f 0 -> (forall e, 0 < e -> c <= f e) -> c <= f 0.
Proof.
  intros C H. apply le_epsilon. intros e He. destruct (C e He) as [d [Hd K]].
  specialize (K (d / 2)). specialize (H (d / 2) ltac:(lra)).
  assert (X : D_x no_cond 0 (d / 2) /\ R_dist (d / 2) 0 < d).
  { split; [split; [exact I|lra]|]. unfold R_dist. rewrite Rabs_right; lra. }
  specialize (K X). unfold dist, R_met, R_dist in K. cbn in K. apply Rabs_def2 in K. lra.
Qed.

Lemma right_positive f : continuity_pt f 0 -> 0 < f 0 -> exists e, 0 < e /\ 0 < f e.
Proof.
  intros C H. apply NNPP. intros N.
  assert (f 0 <= 0); [|lra]. apply Ropp_le_cancel. rewrite Ropp_0.
  apply (right_limit (fun e => - f e)); [apply (continuity_pt_opp f); assumption|].
  intros e He. destruct (Rle_lt_dec (f e) 0) as [L|L]; [lra|]. exfalso. apply N. exists e. split; assumption.
Qed.

Lemma exp_chord d : 0 <= d <= 1 -> exp d <= 1 + 2 * d.
Proof.
  intros [H0 H1]. assert (P := exp_pos d).
  assert (A := exp_ineq1_le (1 - d)). assert (B := exp_ineq1_le (- d)).
  assert (E1 : exp 1 = exp d * exp (1 - d)) by (rewrite <- exp_plus; f_equal; ring).
  assert (E0 : 1 = exp d * exp (- d)) by (rewrite <- exp_plus, Rplus_opp_r, exp_0; reflexivity).
  assert (T := exp_le_3).
  assert (exp d * (1 + (1 - d)) <= exp 1) by (rewrite E1; apply Rmult_le_compat_l; lra).
  assert (exp d * (1 + - d) <= 1) by (rewrite E0 at 2; apply Rmult_le_compat_l; lra).
  assert (d * (exp d * (1 + (1 - d))) <= d * 3) by (apply Rmult_le_compat_l; lra).
  assert ((1 - d) * (exp d * (1 + - d)) <= (1 - d) * 1) by (apply Rmult_le_compat_l; lra).
  replace (exp d) with (d * (exp d * (1 + (1 - d))) + (1 - d) * (exp d * (1 + - d))) by ring. lra.
Qed.

Lemma exp_minus_one d : exp d - 1 <= d * exp d.
Proof.
  assert (P := exp_pos d). assert (B := exp_ineq1_le (- d)).
  assert (E0 : 1 = exp d * exp (- d)) by (rewrite <- exp_plus, Rplus_opp_r, exp_0; reflexivity).
  assert (exp d * (1 + - d) <= 1) by (rewrite E0 at 2; apply Rmult_le_compat_l; lra). lra.
Qed.

(** How far a markup can fall, by its share s when it is best and the factor by which prices of
    others fell. *)
Definition fall_bound (s r : R) : R := s * (r - 1) / (s + (1 - s) * r).

Lemma fall_bound_den s r : 0 <= s <= 1 -> 1 <= r -> 1 <= s + (1 - s) * r.
Proof. intros [A B] H. nra. Qed.

Lemma fall_bound_mono s t r u : 0 <= s <= t -> t <= 1 -> 1 <= r <= u -> fall_bound s r <= fall_bound t u.
Proof.
  intros [Hs Hst] Ht [Hr Hu]. unfold fall_bound.
  assert (A := fall_bound_den s r ltac:(lra) Hr). assert (B := fall_bound_den t u ltac:(lra) ltac:(lra)).
  apply Rmult_le_reg_r with (s + (1 - s) * r); [lra|].
  apply Rmult_le_reg_r with (t + (1 - t) * u); [lra|].
  replace (s * (r - 1) / (s + (1 - s) * r) * (s + (1 - s) * r) * (t + (1 - t) * u))
    with (s * (r - 1) * (t + (1 - t) * u)) by (field; lra).
  replace (t * (u - 1) / (t + (1 - t) * u) * (s + (1 - s) * r) * (t + (1 - t) * u))
    with (t * (u - 1) * (s + (1 - s) * r)) by (field; lra).
  assert (X : t * (u - 1) * (s + (1 - s) * r) - s * (r - 1) * (t + (1 - t) * u)
              = s * (u - r) + (t - s) * (r * (u - 1))) by ring.
  assert (0 <= s * (u - r)) by (apply Rmult_le_pos; lra).
  assert (0 <= (t - s) * (r * (u - 1))) by (apply Rmult_le_pos; [lra|apply Rmult_le_pos; lra]). lra.
Qed.

Lemma small_share s D : 0 <= s <= / 2 -> 0 < D -> fall_bound s (exp D) < D.
Proof.
  intros Hs HD. assert (V : 1 < exp D) by (assert (X := exp_ineq1 D); lra).
  eapply Rle_lt_trans; [apply (fall_bound_mono s (/ 2) (exp D) (exp D)); lra|].
  unfold fall_bound. assert (M := exp_minus_one D).
  apply Rmult_lt_reg_r with (/ 2 + (1 - / 2) * exp D); [lra|].
  replace (/ 2 * (exp D - 1) / (/ 2 + (1 - / 2) * exp D) * (/ 2 + (1 - / 2) * exp D))
    with (/ 2 * (exp D - 1)) by (field; lra).
  nra.
Qed.

(** Two rounds of falls cannot sustain themselves. *)
Lemma two_rounds s D : / 2 < s < 1 -> 0 < D -> fall_bound s (exp (fall_bound (1 - s) (exp D))) < D.
Proof.
  intros Hs HD. assert (V : 1 < exp D) by (assert (X := exp_ineq1 D); lra).
  set (v := exp D) in *. assert (M := exp_minus_one D). fold v in M.
  set (d := fall_bound (1 - s) v).
  assert (Dd : d = (1 - s) * (v - 1) / ((1 - s) + s * v)).
  { unfold d, fall_bound. f_equal. ring. }
  assert (Den : 1 + v <= 2 * ((1 - s) + s * v)) by nra.
  assert (D0 : 0 <= d).
  { rewrite Dd. apply Rmult_le_pos; [apply Rmult_le_pos; lra|]. left. apply Rinv_0_lt_compat. lra. }
  assert (D1 : d <= 1).
  { rewrite Dd. apply Rmult_le_reg_r with ((1 - s) + s * v); [lra|].
    replace ((1 - s) * (v - 1) / (1 - s + s * v) * (1 - s + s * v)) with ((1 - s) * (v - 1)) by (field; lra). nra. }
  assert (D2 : d <= 2 * (1 - s) * D).
  { rewrite Dd. apply Rmult_le_reg_r with ((1 - s) + s * v); [lra|].
    replace ((1 - s) * (v - 1) / (1 - s + s * v) * (1 - s + s * v)) with ((1 - s) * (v - 1)) by (field; lra).
    assert ((1 - s) * (v - 1) <= (1 - s) * (D * v)) by (apply Rmult_le_compat_l; lra).
    assert ((1 - s) * D * (1 + v) <= (1 - s) * D * (2 * (1 - s + s * v))).
    { apply Rmult_le_compat_l; [|assumption]. apply Rmult_le_pos; lra. }
    assert (0 <= (1 - s) * D) by (apply Rmult_le_pos; lra). lra. }
  assert (U := exp_chord d (conj D0 D1)). assert (U1 : 1 <= exp d) by (assert (X := exp_ineq1_le d); lra).
  apply Rle_lt_trans with (s * (exp d - 1)).
  { unfold fall_bound. assert (B := fall_bound_den s (exp d) ltac:(lra) U1).
    apply Rmult_le_reg_r with (s + (1 - s) * exp d); [lra|].
    replace (s * (exp d - 1) / (s + (1 - s) * exp d) * (s + (1 - s) * exp d)) with (s * (exp d - 1)) by (field; lra).
    assert (0 <= s * (exp d - 1)) by (apply Rmult_le_pos; lra). nra. }
  assert (s * (exp d - 1) <= s * (2 * (2 * (1 - s) * D))) by (apply Rmult_le_compat_l; lra).
  assert (4 * s * (1 - s) < 1) by nra. nra.
Qed.
