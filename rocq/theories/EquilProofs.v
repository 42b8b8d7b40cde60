(** Lemmas about markups of firms that sell logit demand, without any reference to the model. *)
From Coq Require Import Reals ZArith Lra Lia List Bool Arith.
From Verif Require Import Base.
Local Open Scope R_scope.

Lemma below_exp t : t * exp (- t) <= exp (- 1).
Proof.
  assert (H := exp_ineq1_le (t - 1)).
  replace (exp (- 1)) with (exp (t - 1) * exp (- t)) by (rewrite <- exp_plus; f_equal; ring).
  apply Rmult_le_compat_r; [left; apply exp_pos|lra].
Qed.

Lemma exp_le a b : a <= b -> exp a <= exp b.
Proof. intros [H| ->]; [left; apply exp_increasing; assumption|right; reflexivity]. Qed.

Lemma div_anti A B C : 0 <= A -> 0 < B <= C -> A / C <= A / B.
Proof.
  intros HA HB. unfold Rdiv. apply Rmult_le_compat_l; [assumption|]. apply Rinv_le_contravar; lra.
Qed.

Section Markups.
(** Products, the firm that sells each, exponentiated utilities at cost, and minus the marginal utility
    of the price. *)
Variables (J : nat) (firm : nat -> Z) (E : nat -> R) (a : R).
Hypothesis Ha : 0 < a.
Hypothesis HE : forall k, (k < J)%nat -> 0 < E k.

Definition weight_of (m : nat -> R) (k : nat) : R := E k * exp (- (a * m k)).
Definition all_weights (m : nat -> R) : R := 1 + sumn J (weight_of m).
Definition share_at (m : nat -> R) (k : nat) : R := weight_of m k / all_weights m.
Definition same (j k : nat) : R := if Z.eqb (firm j) (firm k) then 1 else 0.
Definition firm_margin (m : nat -> R) (j : nat) : R := sumn J (fun k => same k j * share_at m k * m k).
Definition next (m : nat -> R) (j : nat) : R := / a + firm_margin m j.

Definition below (m n : nat -> R) : Prop := forall j, (j < J)%nat -> m j <= n j.

Lemma same_cases j k : same j k = 0 /\ firm j <> firm k \/ same j k = 1 /\ firm j = firm k.
Proof. unfold same. destruct (Z.eqb_spec (firm j) (firm k)); [right|left]; split; auto. Qed.

Lemma weight_pos m k : (k < J)%nat -> 0 < weight_of m k.
Proof. intros Hk. apply Rmult_lt_0_compat; [apply HE; assumption|apply exp_pos]. Qed.

Lemma weights_ge m : 1 <= all_weights m.
Proof.
  unfold all_weights. assert (0 <= sumn J (weight_of m)); [|lra].
  apply sumn_nonneg. intros k Hk. left. apply weight_pos; assumption.
Qed.

Lemma share_pos m k : (k < J)%nat -> 0 < share_at m k.
Proof.
  intros Hk. assert (W := weights_ge m). apply Rdiv_lt_0_compat; [apply weight_pos; assumption|lra].
Qed.

Lemma shares_sum m : sumn J (share_at m) = 1 - / all_weights m.
Proof.
  assert (W := weights_ge m). unfold share_at.
  rewrite (sumn_ext _ _ (fun k => weight_of m k * / all_weights m)) by reflexivity.
  rewrite sumn_scal_r. replace (sumn J (weight_of m)) with (all_weights m - 1) by (unfold all_weights; ring).
  field. lra.
Qed.

(** Weights are lower at higher markups. *)
Lemma weight_anti m n k : (k < J)%nat -> m k <= n k -> weight_of n k <= weight_of m k.
Proof.
  intros Hk H. unfold weight_of. apply Rmult_le_compat_l; [left; apply HE; assumption|].
  apply exp_le. assert (a * m k <= a * n k) by (apply Rmult_le_compat_l; lra). lra.
Qed.

(** Sums over products of a firm and over those of others. *)
Definition own_weight (m : nat -> R) (j : nat) : R := sumn J (fun k => same k j * weight_of m k).
Definition rest_weight (m : nat -> R) (j : nat) : R := 1 + sumn J (fun k => (1 - same k j) * weight_of m k).

Lemma weights_split m j : all_weights m = own_weight m j + rest_weight m j.
Proof.
  unfold all_weights, own_weight, rest_weight.
  rewrite (sumn_ext J (weight_of m) (fun k => same k j * weight_of m k + (1 - same k j) * weight_of m k))
    by (intros; ring).
  rewrite sumn_plus. ring.
Qed.

Lemma own_pos m j : (j < J)%nat -> 0 < own_weight m j.
Proof.
  intros Hj. unfold own_weight. apply sumn_pos.
  - intros k Hk. assert (W := weight_pos m k Hk). destruct (same_cases k j) as [[-> _]|[-> _]]; lra.
  - exists j. split; [assumption|]. unfold same. rewrite Z.eqb_refl.
    assert (W := weight_pos m j Hj). lra.
Qed.

Lemma rest_ge m j : 1 <= rest_weight m j.
Proof.
  unfold rest_weight. assert (0 <= sumn J (fun k => (1 - same k j) * weight_of m k)); [|lra].
  apply sumn_nonneg. intros k Hk. assert (W := weight_pos m k Hk).
  destruct (same_cases k j) as [[-> _]|[-> _]]; lra.
Qed.

Lemma margin_times m j : firm_margin m j * all_weights m = sumn J (fun k => same k j * (weight_of m k * m k)).
Proof.
  assert (W := weights_ge m). unfold firm_margin. rewrite <- sumn_scal_r. apply sumn_ext. intros k Hk.
  unfold share_at. field. lra.
Qed.

(** Weights of a firm's products if all of them had one markup. *)
Definition common_weight (M : R) (j : nat) : R := sumn J (fun k => same k j * (E k * exp (- (a * M)))).

Lemma common_nonneg M j : 0 <= common_weight M j.
Proof.
  apply sumn_nonneg. intros k Hk. assert (0 < E k * exp (- (a * M))).
  { apply Rmult_lt_0_compat; [apply HE; assumption|apply exp_pos]. }
  destruct (same_cases k j) as [[-> _]|[-> _]]; lra.
Qed.

(** The markup that the next step sets is best for the firm, given what others do. *)
Lemma margin_bound m j : a * (firm_margin m j * rest_weight m j) <= common_weight (next m j) j.
Proof.
  assert (T := margin_times m j). rewrite (weights_split m j) in T.
  assert (Eq : firm_margin m j * rest_weight m j
               = sumn J (fun k => same k j * (weight_of m k * (m k - firm_margin m j)))).
  { transitivity (sumn J (fun k => same k j * (weight_of m k * m k)) - firm_margin m j * own_weight m j); [lra|].
    unfold own_weight. rewrite <- sumn_scal, <- sumn_minus. apply sumn_ext. intros; ring. }
  rewrite Eq, <- sumn_scal. unfold common_weight. apply sumn_le. intros k Hk.
  set (phi := firm_margin m j). unfold next. fold phi. unfold weight_of.
  assert (B := below_exp (a * (m k - phi))).
  assert (X : a * (exp (- (a * m k)) * (m k - phi)) <= exp (- (a * (/ a + phi)))).
  { replace (exp (- (a * m k))) with (exp (- (a * (m k - phi))) * exp (- (a * phi)))
      by (rewrite <- exp_plus; f_equal; ring).
    replace (exp (- (a * (/ a + phi)))) with (exp (- 1) * exp (- (a * phi))).
    2: { rewrite <- exp_plus. f_equal. field. lra. }
    replace (a * (exp (- (a * (m k - phi))) * exp (- (a * phi)) * (m k - phi)))
      with (a * (m k - phi) * exp (- (a * (m k - phi))) * exp (- (a * phi))) by ring.
    apply Rmult_le_compat_r; [left; apply exp_pos|assumption]. }
  assert (P := HE k Hk).
  assert (Y := Rmult_le_compat_l (E k) _ _ (Rlt_le _ _ P) X).
  destruct (same_cases k j) as [[-> _]|[-> _]]; lra.
Qed.

Lemma margin_nonneg m j : (forall k, (k < J)%nat -> 0 <= m k) -> 0 <= firm_margin m j.
Proof.
  intros H. apply sumn_nonneg. intros k Hk. assert (W := share_pos m k Hk). specialize (H k Hk).
  destruct (same_cases k j) as [[-> _]|[-> _]]; [lra|].
  rewrite Rmult_1_l. apply Rmult_le_pos; lra.
Qed.

Lemma next_pos m j : (forall k, (k < J)%nat -> 0 <= m k) -> 0 < next m j.
Proof.
  intros H. assert (M := margin_nonneg m j H). assert (I := Rinv_0_lt_compat a Ha). unfold next. lra.
Qed.

Lemma next_same m j k : firm j = firm k -> next m j = next m k.
Proof.
  intros H. unfold next. f_equal. apply sumn_ext. intros l Hl. unfold same. rewrite H. reflexivity.
Qed.

Lemma next_bounded m j : (forall k, (k < J)%nat -> 0 <= m k) -> next m j <= / a + / a * sumn J E.
Proof.
  intros H. assert (B := margin_bound m j). assert (M := margin_nonneg m j H). assert (W := rest_ge m j).
  assert (N := next_pos m j H).
  assert (C : common_weight (next m j) j <= sumn J E).
  { unfold common_weight. apply sumn_le. intros k Hk. assert (P := HE k Hk).
    assert (L : exp (- (a * next m j)) <= 1).
    { rewrite <- exp_0. apply exp_le. assert (0 < a * next m j) by (apply Rmult_lt_0_compat; lra). lra. }
    assert (L0 := exp_pos (- (a * next m j))).
    assert (E k * exp (- (a * next m j)) <= E k) by nra.
    destruct (same_cases k j) as [[-> _]|[-> _]]; lra. }
  assert (firm_margin m j <= firm_margin m j * rest_weight m j) by nra.
  unfold next. apply Rplus_le_compat_l. apply Rmult_le_reg_l with a; [assumption|].
  replace (a * (/ a * sumn J E)) with (sumn J E) by (field; lra).
  assert (a * firm_margin m j <= a * (firm_margin m j * rest_weight m j)) by (apply Rmult_le_compat_l; lra). lra.
Qed.

(** If a step raises no markup of others and the firm's markups are common, the firm's next markup is
    at least that of this step. *)
Lemma own_common m j : (forall k, (k < J)%nat -> firm k = firm j -> m k = m j) ->
  own_weight m j = common_weight (m j) j.
Proof.
  intros H. apply sumn_ext. intros k Hk. destruct (same_cases k j) as [[-> _]|[-> F]]; [ring|].
  unfold weight_of. rewrite (H k Hk F). reflexivity.
Qed.

Lemma margin_common m j : (forall k, (k < J)%nat -> firm k = firm j -> m k = m j) ->
  firm_margin m j * all_weights m = m j * own_weight m j.
Proof.
  intros H. rewrite margin_times. unfold own_weight. rewrite <- sumn_scal. apply sumn_ext. intros k Hk.
  destruct (same_cases k j) as [[-> _]|[-> F]]; [ring|]. rewrite (H k Hk F). ring.
Qed.

Lemma next_up m : (forall k, (k < J)%nat -> 0 <= m k) -> below m (next m) -> below (next m) (next (next m)).
Proof.
  intros H0 HB j Hj. set (n := next m). change (/ a + firm_margin m j <= / a + firm_margin n j).
  apply Rplus_le_compat_l.
  assert (C : forall k, (k < J)%nat -> firm k = firm j -> n k = n j) by (intros k _ F; apply next_same; assumption).
  assert (MC := margin_common n j C). assert (OC := own_common n j C).
  assert (B := margin_bound m j). fold n in B.
  assert (R : rest_weight n j <= rest_weight m j).
  { unfold rest_weight. apply Rplus_le_compat_l. apply sumn_le. intros k Hk.
    assert (W := weight_anti m n k Hk (HB k Hk)). destruct (same_cases k j) as [[-> _]|[-> _]]; lra. }
  assert (M := margin_nonneg m j H0). assert (W1 := rest_ge n j). assert (Wn := weights_ge n).
  assert (I := Rinv_0_lt_compat a Ha).
  apply Rmult_le_reg_r with (all_weights n); [lra|]. rewrite MC.
  rewrite (weights_split n j), OC.
  assert (Nj : n j = / a + firm_margin m j) by reflexivity.
  set (cw := common_weight (n j) j) in *. set (phi := firm_margin m j) in *.
  assert (P : phi * rest_weight n j <= phi * rest_weight m j) by (apply Rmult_le_compat_l; lra).
  assert (Q : phi * rest_weight m j <= / a * cw).
  { apply Rmult_le_reg_l with a; [assumption|]. replace (a * (/ a * cw)) with cw by (field; lra). assumption. }
  rewrite Nj. lra.
Qed.

Fixpoint steps (n : nat) (m : nat -> R) : nat -> R :=
  match n with O => m | S n => next (steps n m) end.

Lemma next_ext m n : (forall k, (k < J)%nat -> m k = n k) -> forall j, next m j = next n j.
Proof.
  intros H j. unfold next, firm_margin. f_equal. apply sumn_ext. intros k Hk.
  assert (W : forall l, (l < J)%nat -> weight_of m l = weight_of n l).
  { intros l Hl. unfold weight_of. rewrite (H l Hl). reflexivity. }
  unfold share_at, all_weights. rewrite (sumn_ext J _ _ W), (W k Hk), (H k Hk). reflexivity.
Qed.

Section From.
Variable start : nat -> R.
Hypothesis H0 : forall k, (k < J)%nat -> 0 <= start k.
Hypothesis HB : below start (next start).

Lemma steps_nonneg n : forall k, (k < J)%nat -> 0 <= steps n start k.
Proof.
  induction n as [|n IH]; intros k Hk; [apply H0; assumption|]. left. apply next_pos. assumption.
Qed.

Lemma steps_up n : below (steps n start) (steps (S n) start).
Proof.
  induction n as [|n IH]; [exact HB|]. cbn [steps]. apply next_up; [apply steps_nonneg|exact IH].
Qed.

Lemma steps_bounded n j : (j < J)%nat -> steps n start j <= / a + / a * sumn J E.
Proof.
  intros Hj. eapply Rle_trans; [apply steps_up; assumption|]. cbn [steps]. apply next_bounded. apply steps_nonneg.
Qed.

Lemma steps_limit : exists l, forall j, (j < J)%nat -> Un_cv (fun n => steps n start j) (l j).
Proof.
  assert (C : forall j, (j < J)%nat -> {l : R | Un_cv (fun n => steps n start j) l}).
  { intros j Hj. apply growing_cv.
    - intros n. apply steps_up. assumption.
    - exists (/ a + / a * sumn J E). intros x [n ->]. apply steps_bounded. assumption. }
  exists (fun j => match lt_dec j J with left H => proj1_sig (C j H) | right _ => 0 end).
  intros j Hj. destruct (lt_dec j J) as [H|H]; [|contradiction]. apply (proj2_sig (C j H)).
Qed.
End From.

(* ---------- limits are fixed points ---------- *)

Lemma cv_const c : Un_cv (fun _ => c) c.
Proof. intros e He. exists O. intros n _. unfold R_dist. rewrite Rminus_eq_0, Rabs_R0. assumption. Qed.

Lemma cv_sumn K (u : nat -> nat -> R) (l : nat -> R) : (forall k, (k < K)%nat -> Un_cv (u k) (l k)) ->
  Un_cv (fun n => sumn K (fun k => u k n)) (sumn K l).
Proof.
  induction K as [|K IH]; intros H; [exact (cv_const 0)|]. cbn [sumn].
  apply (CV_plus (fun n => sumn K (fun k => u k n)) (u K)); [apply IH; intros; apply H; lia|apply H; lia].
Qed.

Lemma cv_ext (u v : nat -> R) l : (forall n, u n = v n) -> Un_cv u l -> Un_cv v l.
Proof. intros H C e He. destruct (C e He) as [N HN]. exists N. intros n Hn. rewrite <- H. apply HN; assumption. Qed.

Lemma cv_exp u l : Un_cv u l -> Un_cv (fun n => exp (u n)) (exp l).
Proof. apply (continuity_seq exp u l). apply derivable_continuous. apply derivable_exp. Qed.

Lemma cv_inv u l : l <> 0 -> Un_cv u l -> Un_cv (fun n => / u n) (/ l).
Proof.
  intros Hl. apply (continuity_seq (fun x => / x) u l).
  apply (continuity_pt_inv (fun x => x)); [|assumption]. apply derivable_continuous, derivable_id.
Qed.

Lemma next_limit (u : nat -> nat -> R) l : (forall k, (k < J)%nat -> Un_cv (fun n => u n k) (l k)) ->
  forall j, Un_cv (fun n => next (u n) j) (next l j).
Proof.
  intros H j. unfold next. apply (CV_plus (fun _ => / a)); [apply cv_const|].
  assert (W : forall k, (k < J)%nat -> Un_cv (fun n => weight_of (u n) k) (weight_of l k)).
  { intros k Hk. unfold weight_of. apply (CV_mult (fun _ => E k)); [apply cv_const|].
    apply (cv_exp (fun n => - (a * u n k))). apply (CV_opp (fun n => a * u n k)).
    apply (CV_mult (fun _ => a)); [apply cv_const|apply H; assumption]. }
  assert (D : Un_cv (fun n => / all_weights (u n)) (/ all_weights l)).
  { apply (cv_inv (fun n => all_weights (u n))); [assert (X := weights_ge l); lra|].
    unfold all_weights. apply (CV_plus (fun _ => 1)); [apply cv_const|].
    apply (cv_sumn J (fun k n => weight_of (u n) k)). assumption. }
  unfold firm_margin. apply (cv_sumn J (fun k n => same k j * share_at (u n) k * u n k)).
  intros k Hk. apply (CV_mult (fun n => same k j * share_at (u n) k)); [|apply H; assumption].
  apply (CV_mult (fun _ => same k j)); [apply cv_const|].
  unfold share_at, Rdiv. apply (CV_mult (fun n => weight_of (u n) k)); [apply W; assumption|assumption].
Qed.

Definition fixed (m : nat -> R) : Prop := forall j, (j < J)%nat -> next m j = m j.

Lemma cv_shift u l : Un_cv u l -> Un_cv (fun n => u (S n)) l.
Proof. intros C e He. destruct (C e He) as [N HN]. exists N. intros n Hn. apply HN. lia. Qed.

Lemma limit_fixed start l : (forall j, (j < J)%nat -> Un_cv (fun n => steps n start j) (l j)) -> fixed l.
Proof.
  intros H j Hj. apply (UL_sequence (fun n => steps (S n) start j)).
  - cbn [steps]. apply (next_limit (fun n => steps n start)). assumption.
  - apply (cv_shift (fun n => steps n start j)). apply H; assumption.
Qed.

(* ---------- uniqueness ---------- *)

Lemma fixed_common m j : fixed m -> (j < J)%nat -> forall k, (k < J)%nat -> firm k = firm j -> m k = m j.
Proof. intros F Hj k Hk H. rewrite <- (F k Hk), <- (F j Hj). apply next_same; assumption. Qed.

(** The firm's share determines its markup. *)
Lemma fixed_share m j : fixed m -> (j < J)%nat ->
  0 < m j /\ common_weight (m j) j * (a * m j) = all_weights m * (a * m j - 1) /\ 1 < a * m j.
Proof.
  intros F Hj. assert (C := fixed_common m j F Hj). assert (MC := margin_common m j C).
  assert (OC := own_common m j C). assert (W := weights_ge m). assert (S := weights_split m j).
  assert (OP := own_pos m j Hj). assert (RG := rest_ge m j).
  assert (N : m j = / a + firm_margin m j) by (symmetry; apply F; assumption).
  assert (X : a * m j - 1 = a * firm_margin m j) by (rewrite N; field; lra).
  assert (Y : (a * m j - 1) * all_weights m = a * m j * own_weight m j).
  { rewrite X. rewrite Rmult_assoc, MC. ring. }
  assert (Z : a * m j * rest_weight m j = all_weights m) by (rewrite S in *; lra).
  assert (P : 0 < a * m j).
  { destruct (Rle_lt_dec (a * m j) 0) as [L|L]; [|assumption]. exfalso.
    assert (a * m j * rest_weight m j <= 0); [|lra].
    rewrite <- (Rmult_0_l (rest_weight m j)). apply Rmult_le_compat_r; lra. }
  assert (Q : 0 < (a * m j - 1) * all_weights m).
  { rewrite Y. apply Rmult_lt_0_compat; assumption. }
  split; [|split].
  - apply Rmult_lt_reg_l with a; [assumption|]. lra.
  - rewrite <- OC. lra.
  - apply Rmult_lt_reg_r with (all_weights m); lra.
Qed.

Lemma common_anti M N j : (j < J)%nat -> M <= N -> common_weight N j <= common_weight M j.
Proof.
  intros Hj H. apply sumn_le. intros k Hk. assert (P := HE k Hk).
  assert (L : exp (- (a * N)) <= exp (- (a * M))).
  { apply exp_le. assert (a * M <= a * N) by (apply Rmult_le_compat_l; lra). lra. }
  assert (E k * exp (- (a * N)) <= E k * exp (- (a * M))) by (apply Rmult_le_compat_l; lra).
  destruct (same_cases k j) as [[-> _]|[-> _]]; lra.
Qed.

(** Where the sum of weights is larger, markups are lower. *)
Lemma fixed_order m n j : fixed m -> fixed n -> (j < J)%nat -> all_weights n <= all_weights m -> m j <= n j.
Proof.
  intros Fm Fn Hj H. destruct (Rle_lt_dec (m j) (n j)) as [L|L]; [assumption|]. exfalso.
  destruct (fixed_share m j Fm Hj) as [Pm [Em Gm]]. destruct (fixed_share n j Fn Hj) as [Pn [En Gn]].
  assert (C := common_anti (n j) (m j) j Hj (Rlt_le _ _ L)).
  assert (Wn := weights_ge n). assert (Wm := weights_ge m).
  assert (AL : a * n j < a * m j) by (apply Rmult_lt_compat_l; lra).
  set (x := a * m j) in *. set (y := a * n j) in *.
  set (cm := common_weight (m j) j) in *. set (cn := common_weight (n j) j) in *.
  set (wm := all_weights m) in *. set (wn := all_weights n) in *.
  (* cm = wm (1 - 1/x) > wn (1 - 1/y) = cn *)
  assert (C0 : 0 <= cn) by apply common_nonneg.
  assert (K : cm * (x * y) <= cn * (x * y)) by (apply Rmult_le_compat_r; [nra|assumption]).
  assert (K1 : cm * (x * y) = wm * (x - 1) * y) by (rewrite <- Em; ring).
  assert (K2 : cn * (x * y) = wn * (y - 1) * x) by (rewrite <- En; ring).
  assert (K3 : wn * (y - 1) * x < wn * (x - 1) * y).
  { assert (0 < wn * (x - y)) by (apply Rmult_lt_0_compat; lra). lra. }
  assert (K4 : wn * ((x - 1) * y) <= wm * ((x - 1) * y)) by (apply Rmult_le_compat_r; nra).
  lra.
Qed.

Lemma share_determined m j : fixed m -> (j < J)%nat ->
  share_at m j * sumn J (fun k => same k j * E k) = E j * (1 - / (a * m j)).
Proof.
  intros F Hj. destruct (fixed_share m j F Hj) as [P [Eq G]]. assert (W := weights_ge m).
  unfold share_at, weight_of.
  assert (C : common_weight (m j) j = sumn J (fun k => same k j * E k) * exp (- (a * m j))).
  { unfold common_weight. rewrite <- sumn_scal_r. apply sumn_ext. intros; ring. }
  rewrite C in Eq. set (T := sumn J (fun k => same k j * E k)) in *. set (e := exp (- (a * m j))) in *.
  set (w := all_weights m) in *. set (x := a * m j) in *.
  assert (Q : T * e = w * (1 - / x)).
  { apply Rmult_eq_reg_r with x; [|lra]. rewrite Eq. field. lra. }
  replace (E j * e / w * T) with (E j * (T * e) / w) by (unfold Rdiv; ring). rewrite Q. field. lra.
Qed.

Lemma firm_total_pos j : (j < J)%nat -> 0 < sumn J (fun k => same k j * E k).
Proof.
  intros Hj. apply sumn_pos.
  - intros k Hk. assert (P := HE k Hk). destruct (same_cases k j) as [[-> _]|[-> _]]; lra.
  - exists j. split; [assumption|]. unfold same. rewrite Z.eqb_refl. assert (P := HE j Hj). lra.
Qed.

Lemma share_order m n j : fixed m -> fixed n -> (j < J)%nat -> m j <= n j -> share_at m j <= share_at n j.
Proof.
  intros Fm Fn Hj H. assert (Em := share_determined m j Fm Hj). assert (En := share_determined n j Fn Hj).
  assert (P := firm_total_pos j Hj). apply Rmult_le_reg_r with (sumn J (fun k => same k j * E k)); [assumption|].
  rewrite Em, En. apply Rmult_le_compat_l; [left; apply HE; assumption|].
  destruct (fixed_share m j Fm Hj) as [Pm [_ Gm]].
  assert (/ (a * n j) <= / (a * m j)); [|lra]. apply Rinv_le_contravar; [lra|]. apply Rmult_le_compat_l; lra.
Qed.

Lemma weights_same m n : fixed m -> fixed n -> all_weights n <= all_weights m -> all_weights m <= all_weights n.
Proof.
  intros Fm Fn H.
  assert (S : sumn J (share_at m) <= sumn J (share_at n)).
  { apply sumn_le. intros j Hj. apply share_order; try assumption. apply fixed_order; assumption. }
  rewrite !shares_sum in S. assert (Wm := weights_ge m). assert (Wn := weights_ge n).
  apply Rnot_lt_le. intros L. assert (I := Rinv_lt_contravar (all_weights n) (all_weights m)).
  assert (0 < all_weights n * all_weights m) by (apply Rmult_lt_0_compat; lra). specialize (I H0 L). lra.
Qed.

Lemma fixed_unique m n : fixed m -> fixed n -> forall j, (j < J)%nat -> m j = n j.
Proof.
  intros Fm Fn j Hj. destruct (Rle_lt_dec (all_weights n) (all_weights m)) as [L|L].
  - assert (L2 := weights_same m n Fm Fn L). apply Rle_antisym; apply fixed_order; assumption.
  - assert (L2 := weights_same n m Fn Fm (Rlt_le _ _ L)). lra.
Qed.

Lemma fixed_nonneg m : fixed m -> forall k, (k < J)%nat -> 0 <= m k.
Proof. intros F k Hk. left. apply (fixed_share m k F Hk). Qed.

Lemma fixed_exists : exists m, fixed m.
Proof.
  destruct (steps_limit (fun _ => 0)) as [l Hl].
  - intros; lra.
  - intros j _. left. apply next_pos. intros; lra.
  - exists l. apply (limit_fixed (fun _ => 0)). assumption.
Qed.

(** From below, steps converge to the one fixed point. *)
Lemma steps_converge start m : (forall k, (k < J)%nat -> 0 <= start k) -> below start (next start) -> fixed m ->
  forall j, (j < J)%nat -> Un_cv (fun n => steps n start j) (m j) /\ start j <= m j.
Proof.
  intros H0 HB F j Hj. destruct (steps_limit start H0 HB) as [l Hl].
  assert (X : l j = m j) by (apply fixed_unique; [apply (limit_fixed start); assumption|assumption|assumption]).
  rewrite <- X. split; [apply Hl; assumption|].
  apply (growing_ineq (fun n => steps n start j) (l j)) with (n := O); [|apply Hl; assumption].
  intros n. apply steps_up; assumption.
Qed.
End Markups.

(** Mergers: firms are put together. *)
Section Merger.
Variables (J : nat) (firm firm' : nat -> Z) (E : nat -> R) (a : R).
Hypothesis Ha : 0 < a.
Hypothesis HE : forall k, (k < J)%nat -> 0 < E k.
Hypothesis Hm : forall j k, (j < J)%nat -> (k < J)%nat -> firm j = firm k -> firm' j = firm' k.

Lemma merger_margin m j : (forall k, (k < J)%nat -> 0 <= m k) -> (j < J)%nat ->
  next J firm E a m j <= next J firm' E a m j.
Proof.
  intros H0 Hj. unfold next. apply Rplus_le_compat_l. apply sumn_le. intros k Hk.
  apply Rmult_le_compat_r; [apply H0; assumption|].
  apply Rmult_le_compat_r; [left; apply share_pos; assumption|].
  destruct (same_cases firm k j) as [[-> _]|[-> F]]; destruct (same_cases firm' k j) as [[-> N]|[-> _]]; try lra.
  exfalso. apply N. apply Hm; assumption.
Qed.

Lemma merger_below m : fixed J firm E a m -> below J m (next J firm' E a m).
Proof.
  intros F j Hj. rewrite <- (F j Hj) at 1. apply merger_margin; [|assumption].
  apply (fixed_nonneg J firm E a Ha HE m F).
Qed.

Lemma merger_strict m j k : fixed J firm E a m -> (j < J)%nat -> (k < J)%nat ->
  firm' j = firm' k -> firm j <> firm k -> m j < next J firm' E a m j.
Proof.
  intros F Hj Hk Hf Hn. rewrite <- (F j Hj) at 1. unfold next. apply Rplus_lt_compat_l.
  assert (P := fixed_nonneg J firm E a Ha HE m F).
  unfold firm_margin. apply sumn_lt.
  - intros l Hl. apply Rmult_le_compat_r; [apply P; assumption|].
    apply Rmult_le_compat_r; [left; apply share_pos; assumption|].
    destruct (same_cases firm l j) as [[-> _]|[-> G]]; destruct (same_cases firm' l j) as [[-> N]|[-> _]]; try lra.
    exfalso. apply N. apply Hm; assumption.
  - exists k. split; [assumption|].
    destruct (same_cases firm k j) as [[-> _]|[_ G]]; [|exfalso; auto].
    destruct (same_cases firm' k j) as [[_ N]|[-> _]]; [exfalso; auto|].
    assert (S := share_pos J E a HE m k Hk).
    destruct (fixed_share J firm E a Ha HE m k F Hk) as [Q _].
    rewrite !Rmult_0_l, Rmult_1_l. apply Rmult_lt_0_compat; assumption.
Qed.
End Merger.
