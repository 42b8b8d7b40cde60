(** Derivatives of (nested) logit choice probabilities along an arbitrary differentiable curve of
    utilities and nesting parameters.  Used by the proofs about Jacobians. *)
From Coq Require Import Reals Lra Lia List Bool Arith.
From Verif Require Import Base DemandSpec DemandModel DemandProofs DemandShares.
Local Open Scope R_scope.

Lemma dlim_ext f g x l : (forall y, f y = g y) -> derivable_pt_lim f x l -> derivable_pt_lim g x l.
Proof. intros E D eps He. destruct (D eps He) as [d Hd]. exists d. intros h H1 H2. rewrite <- !E. auto. Qed.

Lemma dlim_eq f x l l' : l = l' -> derivable_pt_lim f x l -> derivable_pt_lim f x l'.
Proof. intros ->; trivial. Qed.

Lemma dlim_const c x : derivable_pt_lim (fun _ => c) x 0.
Proof. exact (derivable_pt_lim_const c x). Qed.

Lemma dlim_id x : derivable_pt_lim (fun y => y) x 1.
Proof. exact (derivable_pt_lim_id x). Qed.

Lemma dlim_plus f g x a b : derivable_pt_lim f x a -> derivable_pt_lim g x b ->
  derivable_pt_lim (fun y => f y + g y) x (a + b).
Proof. exact (derivable_pt_lim_plus f g x a b). Qed.

Lemma dlim_minus f g x a b : derivable_pt_lim f x a -> derivable_pt_lim g x b ->
  derivable_pt_lim (fun y => f y - g y) x (a - b).
Proof. exact (derivable_pt_lim_minus f g x a b). Qed.

Lemma dlim_mult f g x a b : derivable_pt_lim f x a -> derivable_pt_lim g x b ->
  derivable_pt_lim (fun y => f y * g y) x (a * g x + f x * b).
Proof. exact (derivable_pt_lim_mult f g x a b). Qed.

Lemma dlim_scal c f x a : derivable_pt_lim f x a -> derivable_pt_lim (fun y => c * f y) x (c * a).
Proof. exact (derivable_pt_lim_scal f c x a). Qed.

Lemma dlim_scal_r c f x a : derivable_pt_lim f x a -> derivable_pt_lim (fun y => f y * c) x (a * c).
Proof.
  intros D. apply dlim_ext with (fun y => c * f y); [intros; ring|].
  eapply dlim_eq; [|apply dlim_scal, D]. ring.
Qed.

Lemma dlim_opp f x a : derivable_pt_lim f x a -> derivable_pt_lim (fun y => - f y) x (- a).
Proof. exact (derivable_pt_lim_opp f x a). Qed.

Lemma dlim_div f g x a b : derivable_pt_lim f x a -> derivable_pt_lim g x b -> g x <> 0 ->
  derivable_pt_lim (fun y => f y / g y) x ((a * g x - b * f x) / (g x * g x)).
Proof. intros. exact (derivable_pt_lim_div f g x a b H H0 H1). Qed.

Lemma dlim_exp f x a : derivable_pt_lim f x a -> derivable_pt_lim (fun y => exp (f y)) x (exp (f x) * a).
Proof.
  intros D. exact (derivable_pt_lim_comp f exp x a (exp (f x)) D (derivable_pt_lim_exp (f x))).
Qed.

Lemma dlim_ln f x a : derivable_pt_lim f x a -> 0 < f x ->
  derivable_pt_lim (fun y => ln (f y)) x (a / f x).
Proof.
  intros D Hp. eapply dlim_eq; [|exact (derivable_pt_lim_comp f ln x a (/ f x) D (derivable_pt_lim_ln (f x) Hp))].
  unfold Rdiv; ring.
Qed.

Lemma dlim_sumn n (f : nat -> R -> R) x (a : nat -> R) :
  (forall k, (k < n)%nat -> derivable_pt_lim (f k) x (a k)) ->
  derivable_pt_lim (fun y => sumn n (fun k => f k y)) x (sumn n a).
Proof.
  induction n as [|n IH]; intros H; simpl; [apply dlim_const|].
  apply dlim_plus; [apply IH; intros; apply H; lia | apply H; lia].
Qed.

Lemma dlim_unique f x a b : derivable_pt_lim f x a -> derivable_pt_lim f x b -> a = b.
Proof. apply uniqueness_limite. Qed.

Lemma upd_same x k j : upd x k (x k) j = x j.
Proof. unfold upd. destruct (Nat.eqb_spec j k); subst; reflexivity. Qed.

Lemma upd_derive x k j : derivable_pt_lim (fun t => upd x k t j) (x k) (if Nat.eqb j k then 1 else 0).
Proof.
  unfold upd. destruct (Nat.eqb j k); [apply dlim_id | apply dlim_const].
Qed.

Section Nested.
  Variables (J H : nat) (grp : nat -> nat) (inc : nat -> bool) (out : bool).
  Variables (V : nat -> R -> R) (r : nat -> R -> R) (t : R).
  Variables (v r' : nat -> R).
  Hypothesis Hgrp : forall j, (j < J)%nat -> (grp j < H)%nat.
  Hypothesis Hr : forall h, (h < H)%nat -> r h t < 1.
  Hypothesis DV : forall j, (j < J)%nat -> derivable_pt_lim (V j) t (v j).
  Hypothesis Dr : forall h, (h < H)%nat -> derivable_pt_lim (r h) t (r' h).

  Let Vt := fun k => V k t.
  Let rt := fun h => r h t.
  (** Derivative of V_k / (1 - r_h). *)
  Definition dU (k : nat) : R :=
    v k / (1 - rt (grp k)) + Vt k * r' (grp k) / ((1 - rt (grp k)) * (1 - rt (grp k))).
  Let cond := within_group J grp rt inc Vt.
  Let I := inclusive J grp rt inc Vt.
  Let W := group_weight J grp rt inc Vt.
  Let D := indR out + sumn H W.

  (** Average of dU over the group, under conditional probabilities. *)
  Definition dA (h : nat) : R := sumn J (fun k => if Nat.eqb (grp k) h then cond k * dU k else 0).
  Definition dB (h : nat) : R := (1 - rt h) * dA h - r' h * ln (I h).
  Definition nonemptyb (h : nat) : bool := existsb (fun k => inc k && Nat.eqb (grp k) h) (seq 0 J).

  Lemma dlim_U k : (k < J)%nat -> derivable_pt_lim (fun y => V k y / (1 - r (grp k) y)) t (dU k).
  Proof.
    intros Hk. assert (Hh := Hgrp k Hk). assert (H1 := Hr _ Hh).
    eapply dlim_eq; [|apply dlim_div; [apply DV; assumption|
      apply dlim_minus; [apply dlim_const|apply Dr; assumption]| lra]].
    unfold dU, rt, Vt. field. lra.
  Qed.

  Lemma dlim_inclusive h : (h < H)%nat ->
    derivable_pt_lim (fun y => inclusive J grp (fun g => r g y) inc (fun k => V k y) h) t
      (I h * dA h).
  Proof.
    intros Hh. unfold inclusive.
    assert (HI : forall k, (k < J)%nat -> grp k = h ->
              (if inc k then exp (Vt k / (1 - rt h)) else 0) = I h * cond k).
    { intros k Hk E. unfold cond, within_group. destruct (inc k) eqn:Ei; [|ring].
      rewrite E. fold I. field. apply Rgt_not_eq. apply (inclusive_pos J grp rt inc Vt h).
      apply existsb_seq_group. exists k; split; [assumption|]. rewrite Ei, E, Nat.eqb_refl; reflexivity. }
    eapply dlim_eq; [|apply (dlim_sumn J
      (fun k y => if inc k && Nat.eqb (grp k) h then exp (V k y / (1 - r h y)) else 0) t
      (fun k => I h * (if Nat.eqb (grp k) h then cond k * dU k else 0)))].
    - apply sumn_scal.
    - intros k Hk. destruct (Nat.eqb_spec (grp k) h) as [E|E].
      + specialize (HI k Hk E).
        assert (HIk : I h * (cond k * dU k) = (if inc k then exp (Vt k / (1 - rt h)) else 0) * dU k).
        { rewrite HI; ring. }
        rewrite HIk. rewrite <- E. destruct (inc k); simpl.
        * apply (dlim_exp (fun y => V k y / (1 - r (grp k) y))). apply dlim_U; assumption.
        * rewrite Rmult_0_l. apply dlim_const.
      + rewrite andb_false_r, Rmult_0_r. apply dlim_const.
  Qed.

  Lemma dlim_within j : (j < J)%nat ->
    derivable_pt_lim (fun y => within_group J grp (fun g => r g y) inc (fun k => V k y) j) t
      (cond j * (dU j - dA (grp j))).
  Proof.
    intros Hj. unfold cond, within_group. destruct (inc j) eqn:Ei.
    - assert (HI : 0 < I (grp j)).
      { apply inclusive_pos. apply existsb_seq_group. exists j; split; [assumption|].
        rewrite Ei, Nat.eqb_refl; reflexivity. }
      eapply dlim_eq; [|apply dlim_div; [apply (dlim_exp (fun y => V j y / (1 - r (grp j) y))), dlim_U; assumption|
        apply dlim_inclusive, Hgrp; assumption | fold Vt rt; fold I; lra]].
      cbv beta. fold Vt rt. fold I. change (exp (V j t / (1 - r (grp j) t))) with (exp (Vt j / (1 - rt (grp j)))).
      field. lra.
    - rewrite Rmult_0_l. apply dlim_const.
  Qed.

  Lemma dlim_weight h : (h < H)%nat ->
    derivable_pt_lim (fun y => group_weight J grp (fun g => r g y) inc (fun k => V k y) h) t
      (W h * dB h).
  Proof.
    intros Hh. unfold W, group_weight.
    destruct (existsb (fun k => inc k && Nat.eqb (grp k) h) (seq 0 J)) eqn:E.
    - assert (HI := inclusive_pos J grp rt inc Vt h E). fold I in HI.
      unfold Rpower.
      eapply dlim_eq; [|apply (dlim_exp (fun y => (1 - r h y) *
         ln (inclusive J grp (fun g => r g y) inc (fun k => V k y) h))), dlim_mult;
         [apply dlim_minus; [apply dlim_const|apply Dr; assumption] |
          apply dlim_ln; [apply dlim_inclusive; assumption| exact HI]]].
      cbv beta. fold Vt rt. fold I. change (r h t) with (rt h). unfold dB. field. lra.
    - rewrite Rmult_0_l. apply dlim_const.
  Qed.

  Definition total_B : R := sumn H (fun h => group_share J H grp rt inc out Vt h * dB h).

  Lemma dlim_group_share h : (h < H)%nat -> 0 < D ->
    derivable_pt_lim (fun y => group_share J H grp (fun g => r g y) inc out (fun k => V k y) h) t
      (group_share J H grp rt inc out Vt h * (dB h - total_B)).
  Proof.
    intros Hh HD. unfold group_share at 1.
    eapply dlim_eq; [|apply dlim_div; [apply dlim_weight; assumption|
       apply dlim_plus; [apply dlim_const | apply (dlim_sumn H
         (fun g y => group_weight J grp (fun g => r g y) inc (fun k => V k y) g) t (fun g => W g * dB g));
         intros; apply dlim_weight; assumption] | fold Vt rt; change (D <> 0); lra]].
    cbv beta. fold Vt rt.
    change (fun k : nat => group_weight J grp rt inc Vt k) with W.
    fold W. fold D.
    unfold total_B, group_share. fold W. fold D.
    assert (E : sumn H (fun g => W g / D * dB g) = sumn H (fun g => W g * dB g) / D).
    { unfold Rdiv. rewrite <- sumn_scal_r. apply sumn_ext; intros; ring. }
    rewrite E. field. lra.
  Qed.

  Lemma dlim_nested j : (j < J)%nat -> 0 < D ->
    derivable_pt_lim (fun y => nested J H grp (fun g => r g y) inc out (fun k => V k y) j) t
      (nested J H grp rt inc out Vt j * (dU j - dA (grp j) + dB (grp j) - total_B)).
  Proof.
    intros Hj HD. unfold nested at 1.
    eapply dlim_eq; [|apply dlim_mult; [apply dlim_within; assumption |
       apply dlim_group_share; [apply Hgrp; assumption|assumption]]].
    cbv beta. fold Vt rt. fold cond. unfold nested. fold cond. ring.
  Qed.

End Nested.

(** The nesting parameters fixed: only utilities move. *)
Section FixedRho.
  Variables (J H : nat) (grp : nat -> nat) (inc : nat -> bool) (out : bool).
  Variables (V : nat -> R -> R) (r : nat -> R) (t : R) (v : nat -> R).
  Hypothesis Hgrp : forall j, (j < J)%nat -> (grp j < H)%nat.
  Hypothesis Hr : forall h, (h < H)%nat -> r h < 1.
  Hypothesis DV : forall j, (j < J)%nat -> derivable_pt_lim (V j) t (v j).
  Let Vt := fun k => V k t.
  Let cond := within_group J grp r inc Vt.
  Let P := nested J H grp r inc out Vt.
  Let D := indR out + sumn H (group_weight J grp r inc Vt).

  Definition avg_group (h : nat) : R :=
    sumn J (fun k => if Nat.eqb (grp k) h then cond k * v k else 0).

  Lemma dU_fixed k : dU grp V (fun h _ => r h) t v (fun _ => 0) k = v k / (1 - r (grp k)).
  Proof. unfold dU. rewrite Rmult_0_r. unfold Rdiv at 2. rewrite Rmult_0_l. ring. Qed.

  Lemma dA_fixed h : dA J grp inc V (fun h _ => r h) t v (fun _ => 0) h = avg_group h / (1 - r h).
  Proof.
    unfold dA, avg_group. unfold Rdiv. rewrite <- sumn_scal_r. apply sumn_ext; intros k Hk.
    destruct (Nat.eqb_spec (grp k) h) as [E|E]; [|ring].
    rewrite dU_fixed, E. cbv beta. change (fun h : nat => r h) with r. fold Vt. fold cond. unfold Rdiv. ring.
  Qed.

  Lemma dB_fixed h : (h < H)%nat -> dB J grp inc V (fun h _ => r h) t v (fun _ => 0) h = avg_group h.
  Proof.
    intros Hh. unfold dB. rewrite dA_fixed. assert (H1 := Hr h Hh). field. lra.
  Qed.

  Lemma total_B_fixed : total_B J H grp inc out V (fun h _ => r h) t v (fun _ => 0) =
    sumn J (fun k => P k * v k).
  Proof.
    unfold total_B.
    rewrite (sumn_ext H _ (fun h => sumn J (fun k => if Nat.eqb (grp k) h then P k * v k else 0))).
    - rewrite sumn_swap. apply sumn_ext; intros k Hk.
      rewrite (sumn_ext H _ (fun h => if Nat.eqb h (grp k) then P k * v k else 0)).
      + apply (sumn_delta H (grp k) (fun _ => P k * v k)), Hgrp, Hk.
      + intros h _. rewrite Nat.eqb_sym. reflexivity.
    - intros h Hh. rewrite dB_fixed by assumption. unfold avg_group. rewrite <- sumn_scal.
      apply sumn_ext; intros k Hk. destruct (Nat.eqb_spec (grp k) h) as [E|E]; [|ring].
      unfold P, nested. rewrite E. cbv beta. change (fun h : nat => r h) with r. fold Vt. fold cond. ring.
  Qed.

  Lemma dlim_nested_fixed j : (j < J)%nat -> 0 < D ->
    derivable_pt_lim (fun y => nested J H grp r inc out (fun k => V k y) j) t
      (P j * (v j / (1 - r (grp j)) - r (grp j) / (1 - r (grp j)) * avg_group (grp j)
              - sumn J (fun k => P k * v k))).
  Proof.
    intros Hj HD.
    eapply dlim_eq; [|apply (dlim_nested J H grp inc out V (fun h _ => r h) t v (fun _ => 0)); try assumption;
      intros; apply dlim_const].
    rewrite dU_fixed, dA_fixed, dB_fixed by (apply Hgrp; assumption). rewrite total_B_fixed.
    cbv beta. change (fun h : nat => r h) with r. fold Vt. fold P. assert (H1 := Hr _ (Hgrp j Hj)). field. lra.
  Qed.

  Lemma dlim_within_fixed j : (j < J)%nat ->
    derivable_pt_lim (fun y => within_group J grp r inc (fun k => V k y) j) t
      (cond j * (v j - avg_group (grp j)) / (1 - r (grp j))).
  Proof.
    intros Hj.
    eapply dlim_eq; [|apply (dlim_within J H grp inc V (fun h _ => r h) t v (fun _ => 0)); try assumption;
      intros; apply dlim_const].
    rewrite dU_fixed, dA_fixed. cbv beta. change (fun h : nat => r h) with r. fold Vt. fold cond. assert (H1 := Hr _ (Hgrp j Hj)). field. lra.
  Qed.
End FixedRho.
