(** Mean utilities and markups are differentiable functions of parameters. *)
From Coq Require Import Reals Lra Lia List Bool Arith FunctionalExtensionality.
From Verif Require Import Base DemandSpec DemandModel DemandProofs DemandShares DemandElim DemandDeriv ConvProofs
  SupplyModel SupplySpec SupplyProofs DerivModel DerivProofs DerivCurve DerivParam DerivMore.
Local Open Scope R_scope.

(* ---------- Finitely many indices ---------- *)

Lemma finite_radius (J : nat) (Q : nat -> R -> Prop) :
  (forall j r r', Q j r -> 0 < r' <= r -> Q j r') -> (forall j, (j < J)%nat -> exists r, 0 < r /\ Q j r) ->
  exists r, 0 < r /\ forall j, (j < J)%nat -> Q j r.
Proof.
  intros Mono. induction J as [|J IH]; intro H; [exists 1; split; [lra|intros; lia]|].
  destruct IH as [r [Hr Q1]]; [intros j Hj; apply H; lia|]. destruct (H J ltac:(lia)) as [r' [Hr' Q2]].
  exists (Rmin r r'). assert (0 < Rmin r r') by (apply Rmin_pos; assumption). assert (L := Rmin_l r r'). assert (L' := Rmin_r r r').
  split; [assumption|]. intros j Hj. destruct (Nat.eq_dec j J) as [->|N].
  - apply (Mono _ r'); [exact Q2|lra].
  - apply (Mono _ r); [apply Q1; lia|lra].
Qed.

Lemma argmax (J : nat) (f : nat -> R) : (0 < J)%nat -> exists j, (j < J)%nat /\ forall k, (k < J)%nat -> f k <= f j.
Proof.
  induction J as [|J IH]; intro H; [lia|]. destruct (Nat.eq_dec J 0) as [->|N].
  - exists O. split; [lia|]. intros k Hk. assert (k = O) by lia. subst. lra.
  - destruct IH as [j [Hj M]]; [lia|]. destruct (Rle_dec (f J) (f j)) as [L|L].
    + exists j. split; [lia|]. intros k Hk. destruct (Nat.eq_dec k J) as [->|]; [exact L|apply M; lia].
    + exists J. split; [lia|]. intros k Hk. destruct (Nat.eq_dec k J) as [->|]; [lra|]. specialize (M k ltac:(lia)). lra.
Qed.

(* ---------- Dominant rows ---------- *)

(** A row with no positive elements other than its own: the largest element of a vector dominates the product. *)
Lemma dominant_row J (A v : nat -> R) j : (j < J)%nat -> (forall k, (k < J)%nat -> k <> j -> A k <= 0) ->
  (forall k, (k < J)%nat -> v k <= v j) -> v j * sumn J A <= sumn J (fun k => A k * v k).
Proof.
  intros Hj Ho Hm. rewrite <- sumn_scal. apply sumn_le. intros k Hk. destruct (Nat.eq_dec k j) as [->|N]; [lra|].
  specialize (Ho k Hk N). specialize (Hm k Hk). nra.
Qed.

Section Implicit.
  Variables (J : nat) (F : R -> (nat -> R) -> nat -> R) (A : R -> (nat -> R) -> nat -> nat -> R).
  Variables (t e : R) (delta : R -> nat -> R) (observed b x : nat -> R).
  Hypothesis He : 0 < e.
  Let d0 := delta t.
  (** Derivatives along lines, dominance, matched values, and continuity of the Jacobian at the point. *)
  Hypothesis lines : forall y d v u j, Rabs (y - t) < e -> (j < J)%nat ->
    derivable_pt_lim (fun u => F y (fun k => d k + u * v k) j) u (sumn J (fun k => A y (fun k => d k + u * v k) j k * v k)).
  Hypothesis F_ext : forall y d d' j, (forall k, (k < J)%nat -> d k = d' k) -> (j < J)%nat -> F y d j = F y d' j.
  Hypothesis rows : forall y d j, Rabs (y - t) < e -> (j < J)%nat -> 0 < sumn J (A y d j).
  Hypothesis off : forall y d j k, Rabs (y - t) < e -> (j < J)%nat -> (k < J)%nat -> k <> j -> A y d j k <= 0.
  Hypothesis parameter : forall j, (j < J)%nat -> derivable_pt_lim (fun y => F y d0 j) t (b j).
  Hypothesis matched : forall y j, Rabs (y - t) < e -> (j < J)%nat -> F y (delta y) j = observed j.
  Hypothesis continuous : forall j k eta, (j < J)%nat -> (k < J)%nat -> 0 < eta -> exists r, 0 < r /\
    forall y d, Rabs (y - t) < r -> near J r d0 d -> Rabs (A y d j k - A t d0 j k) < eta.
  Hypothesis solution : forall j, (j < J)%nat -> sumn J (fun k => A t d0 j k * x k) = - b j.

  Lemma sum_small n (f g : nat -> R) eta : (forall k, (k < n)%nat -> Rabs (f k) <= eta) ->
    Rabs (sumn n (fun k => f k * g k)) <= eta * sumn n (fun k => Rabs (g k)).
  Proof.
    clear. intro H. induction n as [|n IH]; cbn; [rewrite Rabs_R0; lra|]. eapply Rle_trans; [apply Rabs_triang|].
    rewrite Rmult_plus_distr_l. apply Rplus_le_compat; [apply IH; intros; apply H; lia|]. rewrite Rabs_mult.
    apply Rmult_le_compat_r; [apply Rabs_pos|apply H; lia].
  Qed.

  (** Near the point, rows sum to something that is bounded away from zero. *)
  Lemma rows_bounded : exists m r, 0 < m /\ 0 < r <= e /\
    forall y d j, Rabs (y - t) < r -> near J r d0 d -> (j < J)%nat -> m <= sumn J (A y d j).
  Proof.
    assert (T : Rabs (t - t) < e) by (unfold Rminus; rewrite Rplus_opp_r, Rabs_R0; exact He).
    assert (M : exists m, 0 < m /\ forall j, (j < J)%nat -> 2 * m <= sumn J (A t d0 j)).
    { destruct (finite_radius J (fun j m => 2 * m <= sumn J (A t d0 j))) as [m [Hm Q]]; [intros; lra| |exists m; auto].
      intros j Hj. exists (sumn J (A t d0 j) / 2). specialize (rows t d0 j T Hj). split; lra. }
    destruct M as [m [Hm HM]].
    destruct (finite_radius J (fun j r => forall y d, Rabs (y - t) < r -> near J r d0 d -> forall k, (k < J)%nat ->
                Rabs (A y d j k - A t d0 j k) <= m / (INR J + 1))) as [r [Hr Q]].
    { intros j r r' Q L y d Hy Hd. apply Q; [lra|]. intros k Hk. specialize (Hd k Hk). lra. }
    { intros j Hj.
      destruct (finite_radius J (fun k r => forall y d, Rabs (y - t) < r -> near J r d0 d -> Rabs (A y d j k - A t d0 j k) <= m / (INR J + 1))) as [r [Hr Q]].
      - intros k r r' Q L y d Hy Hd. apply Q; [lra|]. intros l Hl. specialize (Hd l Hl). lra.
      - intros k Hk. destruct (continuous j k (m / (INR J + 1)) Hj Hk) as [r [Hr C]].
        + apply Rdiv_lt_0_compat; [exact Hm|]. assert (P := pos_INR J). lra.
        + exists r. split; [exact Hr|]. intros y d Hy Hd. left. apply C; assumption.
      - exists r. split; [exact Hr|]. intros y d Hy Hd k Hk. apply Q; assumption. }
    exists m, (Rmin r e). assert (L1 := Rmin_l r e). assert (L2 := Rmin_r r e).
    split; [exact Hm|]. split; [split; [apply Rmin_pos; assumption|exact L2]|]. intros y d j Hy Hd Hj.
    assert (Dif : Rabs (sumn J (A y d j) - sumn J (A t d0 j)) <= m).
    { rewrite <- sumn_minus. rewrite (sumn_ext J _ (fun k => (A y d j k - A t d0 j k) * 1)) by (intros; ring).
      eapply Rle_trans; [apply (sum_small J _ _ (m / (INR J + 1)))|].
      - intros k Hk. apply Q; try assumption; [lra|]. intros l Hl. specialize (Hd l Hl). lra.
      - rewrite (sumn_ext J _ (fun _ => 1)) by (intros; apply Rabs_R1). rewrite sumn_const. assert (P := pos_INR J).
        unfold Rdiv. rewrite Rmult_1_r, Rmult_assoc. rewrite <- (Rmult_1_r m) at 2. apply Rmult_le_compat_l; [lra|].
        apply Rmult_le_reg_r with (INR J + 1); [lra|]. field_simplify; lra. }
    specialize (HM j Hj). assert (Low := Rle_abs (- (sumn J (A y d j) - sumn J (A t d0 j)))). rewrite Rabs_Ropp in Low. lra.
  Qed.

  (** Between two mean utilities, for a direction with sign s whose largest element is j. *)
  Lemma between y d v j : Rabs (y - t) < e -> (j < J)%nat -> exists c, 0 < c < 1 /\
    F y (fun k => d k + v k) j - F y d j = sumn J (fun k => A y (fun k => d k + c * v k) j k * v k).
  Proof.
    intros Hy Hj.
    destruct (MVT_cor2 (fun u => F y (fun k => d k + u * v k) j) (fun u => sumn J (fun k => A y (fun k => d k + u * v k) j k * v k)) 0 1) as [c [E Hc]];
      [lra|intros; apply lines; assumption|].
    exists c. split; [exact Hc|]. rewrite Rminus_0_r, Rmult_1_r in E. rewrite <- E.
    rewrite (F_ext y (fun k => d k + 1 * v k) (fun k => d k + v k) j), (F_ext y (fun k => d k + 0 * v k) d j); try assumption; try reflexivity; intros; ring.
  Qed.

  (** Continuity. *)
  Lemma delta_continuous r : 0 < r -> exists r', 0 < r' <= e /\ forall y, Rabs (y - t) < r' -> near J r d0 (delta y).
  Proof.
    intro Hr. destruct rows_bounded as [m [r0 [Hm [Hr0 B]]]].
    set (s := Rmin r r0 / 2). assert (L1 := Rmin_l r r0). assert (L2 := Rmin_r r r0).
    assert (Hs0 : 0 < Rmin r r0) by (apply Rmin_pos; lra). assert (Hs : 0 < s < r /\ s < r0) by (unfold s; lra).
    destruct (finite_radius J (fun j r' => forall y, Rabs (y - t) < r' -> Rabs (F y d0 j - F t d0 j) < m * s)) as [r1 [Hr1 C]].
    { intros j r1 r2 Q L y Hy. apply Q. lra. }
    { intros j Hj. assert (Cn : continuity_pt (fun y => F y d0 j) t).
      { apply derivable_continuous_pt. exists (b j). apply parameter, Hj. }
      destruct (Cn (m * s) ltac:(apply Rmult_lt_0_compat; lra)) as [r1 [Hr1 C]]. exists r1. split; [exact Hr1|].
      intros y Hy. destruct (Req_dec y t) as [->|N]; [unfold Rminus; rewrite Rplus_opp_r, Rabs_R0; apply Rmult_lt_0_compat; lra|].
      apply C. split; [split; [exact I|auto]|exact Hy]. }
    exists (Rmin r1 r0). assert (L3 := Rmin_l r1 r0). assert (L4 := Rmin_r r1 r0).
    split; [split; [apply Rmin_pos; lra|lra]|]. intros y Hy.
    destruct (Nat.eq_dec J 0) as [J0|J0]; [intros k Hk; lia|].
    assert (T : Rabs (t - t) < e) by (unfold Rminus; rewrite Rplus_opp_r, Rabs_R0; exact He).
    destruct (argmax J (fun k => Rabs (delta y k - d0 k)) ltac:(lia)) as [j [Hj Mx]].
    destruct (Rle_dec (Rabs (delta y j - d0 j)) s) as [G|G]; [intros k Hk; specialize (Mx k Hk); lra|]. exfalso.
    (* the sign of the largest change *)
    assert (Sg : exists sg, (sg = 1 \/ sg = -1) /\ sg * (delta y j - d0 j) = Rabs (delta y j - d0 j)).
    { unfold Rabs. destruct (Rcase_abs (delta y j - d0 j)); [exists (-1)|exists 1]; split; [right|ring|left|ring]; reflexivity. }
    destruct Sg as [sg [Sg E]]. set (v := fun k => delta y k - d0 k). set (D := Rabs (delta y j - d0 j)) in *.
    assert (Mv : forall k, (k < J)%nat -> sg * v k <= sg * v j).
    { intros k Hk. specialize (Mx k Hk). fold (v k) in Mx. unfold v at 2. rewrite E. assert (X := Rle_abs (v k)). assert (Y := Rle_abs (- v k)). rewrite Rabs_Ropp in Y.
      fold (v j) in Mx. fold D in Mx. destruct Sg as [-> | ->]; lra. }
    assert (Slope : forall d, Rabs (y - t) < e -> D * sumn J (A y d j) <= sg * sumn J (fun k => A y d j k * v k)).
    { intros d Hy'. assert (S1 := dominant_row J (A y d j) (fun k => sg * v k) j Hj (fun k Hk N => off y d j k Hy' Hj Hk N) Mv).
      cbv beta in S1. rewrite <- (sumn_scal J sg). rewrite (sumn_ext J (fun k => sg * (A y d j k * v k)) (fun k => A y d j k * (sg * v k))) by (intros; ring).
      replace D with (sg * v j) by (unfold v; exact E). exact S1. }
    assert (Hye : Rabs (y - t) < e) by lra.
    (* from d0 to the boundary, and from there to delta y *)
    set (c := s / D). assert (Hc : 0 < c < 1).
    { unfold c. split; [apply Rdiv_lt_0_compat; lra|]. apply Rmult_lt_reg_r with D; [lra|]. unfold Rdiv. rewrite Rmult_assoc, Rinv_l by lra. lra. }
    assert (cD : c * D = s) by (unfold c; field; lra).
    destruct (between y d0 (fun k => c * v k) j Hye Hj) as [c1 [Hc1 E1]].
    destruct (between y (fun k => d0 k + c * v k) (fun k => (1 - c) * v k) j Hye Hj) as [c2 [Hc2 E2]].
    rewrite (F_ext y (fun k => d0 k + c * v k + (1 - c) * v k) (delta y) j) in E2 by (try assumption; intros; unfold v; ring).
    rewrite (matched y j Hye Hj), <- (matched t j T Hj) in E2. fold d0 in E2.
    rewrite (sumn_ext J _ (fun k => c * (A y (fun k => d0 k + c1 * (c * v k)) j k * v k))) in E1 by (intros; ring). rewrite sumn_scal in E1.
    rewrite (sumn_ext J _ (fun k => (1 - c) * (A y (fun k => d0 k + c * v k + c2 * ((1 - c) * v k)) j k * v k))) in E2 by (intros; ring). rewrite sumn_scal in E2.
    assert (S1 := Slope (fun k => d0 k + c1 * (c * v k)) Hye).
    assert (S2 := Slope (fun k => d0 k + c * v k + c2 * ((1 - c) * v k)) Hye).
    assert (P2 := rows y (fun k => d0 k + c * v k + c2 * ((1 - c) * v k)) j Hye Hj).
    assert (P1 : m <= sumn J (A y (fun k => d0 k + c1 * (c * v k)) j)).
    { apply B; [lra| |exact Hj]. intros k Hk. replace (d0 k + c1 * (c * v k) - d0 k) with (c1 * (c * v k)) by ring.
      rewrite Rabs_mult, Rabs_mult, (Rabs_pos_eq c1), (Rabs_pos_eq c) by lra. specialize (Mx k Hk). fold (v k) in Mx. fold D in Mx.
      assert (c * Rabs (v k) <= s) by (rewrite <- cD; apply Rmult_le_compat_l; lra). assert (0 <= c * Rabs (v k)) by (apply Rmult_le_pos; [lra|apply Rabs_pos]). nra. }
    specialize (C j Hj y ltac:(lra)).
    set (q1 := sumn J (fun k => A y (fun k => d0 k + c1 * (c * v k)) j k * v k)) in *.
    set (q2 := sumn J (fun k => A y (fun k => d0 k + c * v k + c2 * ((1 - c) * v k)) j k * v k)) in *.
    set (a1 := sumn J (A y (fun k => d0 k + c1 * (c * v k)) j)) in *.
    set (a2 := sumn J (A y (fun k => d0 k + c * v k + c2 * ((1 - c) * v k)) j)) in *.
    assert (Tot : F t d0 j - F y d0 j = c * q1 + (1 - c) * q2) by lra.
    assert (K1 : m * s <= sg * (c * q1)).
    { replace (sg * (c * q1)) with (c * (sg * q1)) by ring. rewrite <- cD. assert (D * m <= D * a1) by (apply Rmult_le_compat_l; lra).
      replace (m * (c * D)) with (c * (D * m)) by ring. apply Rmult_le_compat_l; lra. }
    assert (K2 : 0 <= sg * ((1 - c) * q2)).
    { replace (sg * ((1 - c) * q2)) with ((1 - c) * (sg * q2)) by ring. apply Rmult_le_pos; [lra|]. assert (0 < D * a2) by (apply Rmult_lt_0_compat; lra). lra. }
    assert (K : m * s <= sg * (F t d0 j - F y d0 j)) by (rewrite Tot, Rmult_plus_distr_l; lra).
    assert (U1 := Rle_abs (F y d0 j - F t d0 j)). assert (U2 := Rle_abs (- (F y d0 j - F t d0 j))). rewrite Rabs_Ropp in U2.
    destruct Sg as [-> | ->]; lra.
  Qed.

  (** Differentiability. *)
  Theorem delta_differentiable k : (k < J)%nat -> derivable_pt_lim (fun y => delta y k) t (x k).
  Proof.
    intros Hk eta Heta. destruct rows_bounded as [m [r0 [Hm [Hr0 B]]]].
    set (S := sumn J (fun k => Rabs (x k))). assert (HS : 0 <= S) by (apply sumn_nonneg; intros; apply Rabs_pos).
    (* the Jacobian is within tolerance *)
    destruct (finite_radius J (fun j r => forall y d, Rabs (y - t) < r -> near J r d0 d -> forall k, (k < J)%nat ->
                Rabs (A y d j k - A t d0 j k) <= eta * m / 4 / (S + 1))) as [r1 [Hr1 Q1]].
    { intros j r r' Q L y d Hy Hd. apply Q; [lra|]. intros l Hl. specialize (Hd l Hl). lra. }
    { intros j Hj.
      destruct (finite_radius J (fun k r => forall y d, Rabs (y - t) < r -> near J r d0 d -> Rabs (A y d j k - A t d0 j k) <= eta * m / 4 / (S + 1))) as [r [Hr Q]].
      - intros l r r' Q L y d Hy Hd. apply Q; [lra|]. intros l' Hl'. specialize (Hd l' Hl'). lra.
      - intros l Hl. destruct (continuous j l (eta * m / 4 / (S + 1)) Hj Hl) as [r [Hr C]].
        + apply Rdiv_lt_0_compat; [|lra]. assert (0 < eta * m) by (apply Rmult_lt_0_compat; lra). lra.
        + exists r. split; [exact Hr|]. intros y d Hy Hd. left. apply C; assumption.
      - exists r. split; [exact Hr|]. intros y d Hy Hd l Hl. apply Q; assumption. }
    (* so are difference quotients in the parameter *)
    destruct (finite_radius J (fun j r => forall h, h <> 0 -> Rabs h < r -> Rabs ((F (t + h) d0 j - F t d0 j) / h - b j) < eta * m / 4)) as [r2 [Hr2 Q2]].
    { intros j r r' Q L h Hh Hr. apply Q; [exact Hh|lra]. }
    { intros j Hj. destruct (parameter j Hj (eta * m / 4)) as [r Hr].
      - assert (0 < eta * m) by (apply Rmult_lt_0_compat; lra). lra.
      - exists r. split; [apply cond_pos|exact Hr]. }
    (* and changes of mean utilities *)
    destruct (delta_continuous (Rmin r0 r1)) as [r3 [Hr3 Q3]]; [apply Rmin_pos; lra|].
    set (r := Rmin (Rmin r0 r1) (Rmin r2 r3)).
    assert (Hr : 0 < r /\ r <= r0 /\ r <= r1 /\ r <= r2 /\ r <= r3).
    { unfold r. assert (X1 := Rmin_l (Rmin r0 r1) (Rmin r2 r3)). assert (X2 := Rmin_r (Rmin r0 r1) (Rmin r2 r3)).
      assert (X3 := Rmin_l r0 r1). assert (X4 := Rmin_r r0 r1). assert (X5 := Rmin_l r2 r3). assert (X6 := Rmin_r r2 r3).
      split; [repeat apply Rmin_pos; lra|]. lra. }
    destruct Hr as [Hr [G0 [G1 [G2 G3]]]]. exists (mkposreal r Hr). intros h Hh Hlt. cbn in Hlt.
    set (y := t + h). assert (Ey : y - t = h) by (unfold y; ring).
    assert (Ny := Q3 y ltac:(rewrite Ey; lra)). assert (Hye : Rabs (y - t) < e) by (rewrite Ey; lra).
    assert (T : Rabs (t - t) < e) by (unfold Rminus; rewrite Rplus_opp_r, Rabs_R0; exact He).
    set (v := fun k => delta y k - d0 k). set (w := fun k => v k / h - x k).
    change (Rabs (w k) < eta).
    destruct (argmax J (fun k => Rabs (w k)) ltac:(lia)) as [j [Hj Mx]].
    apply Rle_lt_trans with (Rabs (w j)); [apply Mx, Hk|].
    destruct (between y d0 v j Hye Hj) as [c [Hc E]].
    rewrite (F_ext y (fun k => d0 k + v k) (delta y) j) in E by (try assumption; intros; unfold v; ring).
    rewrite (matched y j Hye Hj), <- (matched t j T Hj) in E. fold d0 in E.
    set (A' := A y (fun k => d0 k + c * v k) j) in *.
    assert (Nd : forall r', (forall k, (k < J)%nat -> Rabs (v k) < r') -> near J r' d0 (fun k => d0 k + c * v k)).
    { intros r' H l Hl. replace (d0 l + c * v l - d0 l) with (c * v l) by ring. rewrite Rabs_mult, (Rabs_pos_eq c) by lra.
      specialize (H l Hl). assert (0 <= Rabs (v l)) by apply Rabs_pos. nra. }
    assert (M1 := Rmin_l r0 r1). assert (M2 := Rmin_r r0 r1).
    assert (Hm' : m <= sumn J A').
    { apply B; [rewrite Ey; lra| |exact Hj]. apply Nd. intros l Hl. specialize (Ny l Hl). fold (v l) in Ny. lra. }
    assert (HA : forall l, (l < J)%nat -> Rabs (A' l - A t d0 j l) <= eta * m / 4 / (S + 1)).
    { apply Q1; [exact Hj|rewrite Ey; lra|]. apply Nd. intros l Hl. specialize (Ny l Hl). fold (v l) in Ny. lra. }
    (* the equation for the error *)
    assert (Eq : sumn J (fun k => A' k * w k) = - ((F y d0 j - F t d0 j) / h - b j) - sumn J (fun k => (A' k - A t d0 j k) * x k)).
    { rewrite (sumn_ext J (fun k => A' k * w k) (fun k => / h * (A' k * v k) - A' k * x k)) by (intros; unfold w; field; exact Hh).
      rewrite sumn_minus, sumn_scal, <- E.
      rewrite (sumn_ext J (fun k => (A' k - A t d0 j k) * x k) (fun k => A' k * x k - A t d0 j k * x k)) by (intros; ring).
      rewrite sumn_minus, (solution j Hj). field. exact Hh. }
    assert (B1 : Rabs ((F y d0 j - F t d0 j) / h - b j) < eta * m / 4) by (apply Q2; [exact Hj|exact Hh|lra]).
    assert (B2 : Rabs (sumn J (fun k => (A' k - A t d0 j k) * x k)) <= eta * m / 4).
    { eapply Rle_trans; [apply (sum_small J (fun k => A' k - A t d0 j k) x _ HA)|]. fold S.
      assert (0 < eta * m / 4) by (assert (0 < eta * m) by (apply Rmult_lt_0_compat; lra); lra).
      unfold Rdiv at 1. rewrite Rmult_assoc. rewrite <- (Rmult_1_r (eta * m / 4)) at 2. apply Rmult_le_compat_l; [lra|].
      apply Rmult_le_reg_l with (S + 1); [lra|]. rewrite <- Rmult_assoc, Rinv_r by lra. lra. }
    assert (Sg : exists sg, (sg = 1 \/ sg = -1) /\ sg * w j = Rabs (w j)).
    { unfold Rabs. destruct (Rcase_abs (w j)); [exists (-1)|exists 1]; split; [right|ring|left|ring]; reflexivity. }
    destruct Sg as [sg [Sg Esg]].
    assert (Mv : forall k, (k < J)%nat -> sg * w k <= sg * w j).
    { intros l Hl. specialize (Mx l Hl). rewrite Esg. assert (X := Rle_abs (w l)). assert (Y := Rle_abs (- w l)). rewrite Rabs_Ropp in Y.
      destruct Sg as [-> | ->]; lra. }
    assert (S1 := dominant_row J A' (fun k => sg * w k) j Hj (fun k Hk N => off y (fun k => d0 k + c * v k) j k Hye Hj Hk N) Mv). cbv beta in S1.
    rewrite (sumn_ext J (fun k => A' k * (sg * w k)) (fun k => sg * (A' k * w k))) in S1 by (intros; ring). rewrite sumn_scal, Eq, Esg in S1.
    set (z1 := (F y d0 j - F t d0 j) / h - b j) in *. set (z2 := sumn J (fun k => (A' k - A t d0 j k) * x k)) in *.
    assert (Up : sg * (- z1 - z2) <= Rabs z1 + Rabs z2).
    { assert (X1 := Rle_abs z1). assert (X2 := Rle_abs (- z1)). assert (X3 := Rle_abs z2). assert (X4 := Rle_abs (- z2)). rewrite Rabs_Ropp in X2, X4.
      destruct Sg as [-> | ->]; lra. }
    assert (Fin : Rabs (w j) * m <= Rabs (w j) * sumn J A') by (apply Rmult_le_compat_l; [apply Rabs_pos|exact Hm']).
    apply Rmult_lt_reg_r with m; [exact Hm|]. assert (0 < eta * m) by (apply Rmult_lt_0_compat; lra). lra.
  Qed.
End Implicit.
