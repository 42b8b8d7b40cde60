(** Proofs about moments in innovations. *)
From Coq Require Import Reals List Bool Arith Lia Lra.
From Verif Require Import Base DiffModel DiffSpec SimSpec DemandDeriv ProgressProofs.
Import ListNotations.
Local Open Scope R_scope.

(** ** Differences are linear *)
Lemma quasi_sum lag K x g b phi o h ophi r :
  quasi lag (fun r => x r - sumn K (fun k => g k r * b k)) phi (fun r => o r - sumn K (fun k => h k r * b k)) ophi r
  = quasi lag x phi o ophi r - sumn K (fun k => quasi lag (g k) phi (h k) ophi r * b k).
Proof.
  unfold quasi. rewrite (sumn_ext K (fun k => (g k r - phi * g k (lag r) - ophi * h k (lag r)) * b k)
    (fun k => g k r * b k - phi * (g k (lag r) * b k) - ophi * (h k (lag r) * b k))) by (intros; ring).
  rewrite !sumn_minus, !sumn_scal. ring.
Qed.
Lemma difference_sum lag ty K x g b phi o h ophi r :
  difference lag ty (fun r => x r - sumn K (fun k => g k r * b k)) phi (fun r => o r - sumn K (fun k => h k r * b k)) ophi r
  = difference lag ty x phi o ophi r - sumn K (fun k => difference lag ty (g k) phi (h k) ophi r * b k).
Proof.
  destruct ty; cbn [difference].
  - reflexivity.
  - destruct (has_lag lag r); [apply quasi_sum|].
    rewrite (sumn_ext K _ (fun _ => 0)) by (intros; ring). rewrite sumn_zero. ring.
  - destruct (has_second_lag lag r).
    + rewrite !quasi_sum. rewrite (sumn_ext K (fun k => (quasi lag (g k) phi (h k) ophi r - quasi lag (g k) phi (h k) ophi (lag r)) * b k)
        (fun k => quasi lag (g k) phi (h k) ophi r * b k - quasi lag (g k) phi (h k) ophi (lag r) * b k)) by (intros; ring).
      rewrite sumn_minus. ring.
    + rewrite (sumn_ext K _ (fun _ => 0)) by (intros; ring). rewrite sumn_zero. ring.
Qed.
Lemma side_sum lag phi s ty K x g b o h r :
  difference_side lag phi s ty (fun r => x r - sumn K (fun k => g k r * b k)) (fun r => o r - sumn K (fun k => h k r * b k)) r
  = difference_side lag phi s ty x o r - sumn K (fun k => difference_side lag phi s ty (g k) (h k) r * b k).
Proof. destruct s; cbn [difference_side]; apply difference_sum. Qed.
Lemma derivative_sum lag ty K x g b r :
  difference_derivative lag ty (fun r => x r - sumn K (fun k => g k r * b k)) r
  = difference_derivative lag ty x r - sumn K (fun k => difference_derivative lag ty (g k) r * b k).
Proof.
  destruct ty; cbn [difference_derivative].
  - rewrite (sumn_ext K _ (fun _ => 0)) by (intros; ring). rewrite sumn_zero. ring.
  - destruct (has_lag lag r); [|rewrite (sumn_ext K _ (fun _ => 0)) by (intros; ring); rewrite sumn_zero; ring].
    rewrite (sumn_ext K (fun k => - g k (lag r) * b k) (fun k => - (g k (lag r) * b k))) by (intros; ring). rewrite sumn_opp. ring.
  - destruct (has_second_lag lag r); [|rewrite (sumn_ext K _ (fun _ => 0)) by (intros; ring); rewrite sumn_zero; ring].
    rewrite (sumn_ext K (fun k => - (g k (lag r) - g k (lag (lag r))) * b k)
      (fun k => g k (lag (lag r)) * b k - g k (lag r) * b k)) by (intros; ring). rewrite sumn_minus. ring.
Qed.

(** ** Errors *)
Lemma difference_error lag phi errors s ty r :
  moment_error lag phi errors ty (row_of s) r
    (difference_side lag phi s ty (fun r => errors r 0%nat) (fun r => errors r 1%nat) r).
Proof.
  assert (G : forall r, quasi lag (fun r => errors r (row_of s)) (phi (row_of s) (row_of s)) (fun r => errors r (1 - row_of s)%nat)
            (phi (row_of s) (1 - row_of s)%nat) r = innovation lag phi errors (row_of s) r).
  { intro q. unfold quasi, innovation. destruct s; cbn [row_of Nat.sub]; ring. }
  assert (E : difference_side lag phi s ty (fun r => errors r 0%nat) (fun r => errors r 1%nat) r
    = difference lag ty (fun r => errors r (row_of s)) (phi (row_of s) (row_of s)) (fun r => errors r (1 - row_of s)%nat)
        (phi (row_of s) (1 - row_of s)%nat) r) by (destruct s; reflexivity).
  rewrite E. destruct ty; cbn [difference moment_error].
  - reflexivity.
  - unfold has_lag. destruct (Nat.eqb_spec (lag r) r) as [H|H]; cbn [negb]; split; intro; try contradiction; try reflexivity. apply G.
  - unfold has_second_lag, has_lag. destruct (Nat.eqb_spec (lag r) r) as [H|H]; cbn [negb andb].
    + split; [reflexivity|contradiction].
    + destruct (Nat.eqb_spec (lag (lag r)) (lag r)) as [H'|H']; cbn [negb]; split; try reflexivity; try tauto. intros _ _. rewrite !G. reflexivity.
Qed.

(** ** Derivatives of inverses *)
Definition lim0 (f : R -> R) (l : R) : Prop := limit1_in f (fun h => h <> 0) l 0.
Lemma lim0_iff f l : lim0 f l <-> forall eps, 0 < eps -> exists d, 0 < d /\ forall h, h <> 0 -> Rabs h < d -> Rabs (f h - l) < eps.
Proof.
  unfold lim0, limit1_in, limit_in. cbn. unfold R_dist. split; intros H eps He; destruct (H eps He) as (d & Hd & K); exists d; split; try exact Hd.
  - intros h Hh Hlt. apply K. rewrite Rminus_0_r. split; assumption.
  - intros h [Hh Hlt]. rewrite Rminus_0_r in Hlt. apply K; assumption.
Qed.
Lemma lim0_ext f g l : (exists d, 0 < d /\ forall h, h <> 0 -> Rabs h < d -> f h = g h) -> lim0 f l -> lim0 g l.
Proof.
  intros (d0 & Hd0 & E) H. apply lim0_iff. intros eps He. destruct (proj1 (lim0_iff f l) H eps He) as (d & Hd & K).
  exists (Rmin d d0). split; [apply Rmin_glb_lt; assumption|]. intros h Hh Hlt.
  assert (L1 := Rmin_l d d0). assert (L2 := Rmin_r d d0). rewrite <- E by (try assumption; lra). apply K; [assumption|lra].
Qed.
Lemma lim0_const c : lim0 (fun _ => c) c.
Proof. apply lim0_iff. intros eps He. exists 1. split; [lra|]. intros. rewrite Rminus_diag_eq, Rabs_R0 by reflexivity. exact He. Qed.
Lemma lim0_plus f g l m : lim0 f l -> lim0 g m -> lim0 (fun h => f h + g h) (l + m).
Proof. apply limit_plus. Qed.
Lemma lim0_mult f g l m : lim0 f l -> lim0 g m -> lim0 (fun h => f h * g h) (l * m).
Proof. apply limit_mul. Qed.
Lemma lim0_sumn K (f : nat -> R -> R) (l : nat -> R) : (forall k, (k < K)%nat -> lim0 (f k) (l k)) -> lim0 (fun h => sumn K (fun k => f k h)) (sumn K l).
Proof.
  induction K as [|K IH]; intro H; cbn [sumn]; [apply lim0_const|]. apply lim0_plus; [apply IH; intros; apply H; lia|apply H; lia].
Qed.
Lemma lim0_abs f : lim0 f 0 -> lim0 (fun h => Rabs (f h)) 0.
Proof.
  intro H. apply lim0_iff. intros eps He. destruct (proj1 (lim0_iff f 0) H eps He) as (d & Hd & K). exists d. split; [exact Hd|].
  intros h Hh Hlt. specialize (K h Hh Hlt). rewrite Rminus_0_r in *. rewrite Rabs_Rabsolu. exact K.
Qed.
Lemma lim0_squeeze f g : (exists d, 0 < d /\ forall h, h <> 0 -> Rabs h < d -> Rabs (f h) <= g h) -> lim0 g 0 -> lim0 f 0.
Proof.
  intros (d0 & Hd0 & E) H. apply lim0_iff. intros eps He. destruct (proj1 (lim0_iff g 0) H eps He) as (d & Hd & K).
  exists (Rmin d d0). split; [apply Rmin_glb_lt; assumption|]. intros h Hh Hlt.
  assert (L1 := Rmin_l d d0). assert (L2 := Rmin_r d d0). rewrite Rminus_0_r.
  eapply Rle_lt_trans; [apply E; [assumption|lra]|]. specialize (K h Hh ltac:(lra)). rewrite Rminus_0_r in K.
  eapply Rle_lt_trans; [apply Rle_abs|exact K].
Qed.
Lemma lim0_deriv f t l : derivable_pt_lim f t l <-> lim0 (fun h => (f (t + h) - f t) / h) l.
Proof.
  rewrite lim0_iff. split; intros H eps He.
  - destruct (H eps He) as [d K]. exists d. split; [apply cond_pos|exact K].
  - destruct (H eps He) as (d & Hd & K). exists (mkposreal d Hd). exact K.
Qed.
Lemma lim0_id : lim0 (fun h => h) 0.
Proof. apply lim0_iff. intros eps He. exists eps. split; [exact He|]. intros h _ Hlt. rewrite Rminus_0_r. exact Hlt. Qed.
Lemma lim0_change f t l : derivable_pt_lim f t l -> lim0 (fun h => f (t + h) - f t) 0.
Proof.
  intro H. apply lim0_deriv in H. replace 0 with (0 * l) by ring.
  refine (lim0_ext _ _ _ _ (lim0_mult _ _ _ _ lim0_id H)). exists 1. split; [lra|]. intros h Hh _. field. exact Hh.
Qed.

Definition norm1 (K : nat) (A : nat -> nat -> R) : R := sumn K (fun k => sumn K (fun l => Rabs (A k l))).
Lemma sumn_abs n f : Rabs (sumn n f) <= sumn n (fun k => Rabs (f k)).
Proof. induction n as [|n IH]; cbn [sumn]; [rewrite Rabs_R0; lra|]. eapply Rle_trans; [apply Rabs_triang|]. lra. Qed.
Lemma norm1_nonneg K A : 0 <= norm1 K A.
Proof. apply sumn_nonneg. intros k _. apply sumn_nonneg. intros l _. apply Rabs_pos. Qed.
Lemma norm1_entry K A k l : (k < K)%nat -> (l < K)%nat -> Rabs (A k l) <= norm1 K A.
Proof.
  intros Hk Hl. eapply Rle_trans; [|apply (sumn_ge_term K (fun k => sumn K (fun l => Rabs (A k l))) k)]; [| |exact Hk].
  - apply (sumn_ge_term K (fun l => Rabs (A k l)) l); [|exact Hl]. intros; apply Rabs_pos.
  - intros; apply sumn_nonneg; intros; apply Rabs_pos.
Qed.
Definition mmul (K : nat) (A B : nat -> nat -> R) : nat -> nat -> R := fun k l => sumn K (fun j => A k j * B j l).
Lemma norm1_mul K A B : norm1 K (mmul K A B) <= norm1 K A * norm1 K B.
Proof.
  apply Rle_trans with (sumn K (fun k => sumn K (fun l => sumn K (fun j => Rabs (A k j) * Rabs (B j l))))).
  - apply sumn_le. intros k _. apply sumn_le. intros l _. eapply Rle_trans; [apply sumn_abs|]. right. apply sumn_ext. intros. apply Rabs_mult.
  - apply Rle_trans with (sumn K (fun k => sumn K (fun j => Rabs (A k j) * sumn K (fun l => Rabs (B j l))))).
    + right. apply sumn_ext. intros k _. rewrite sumn_swap. apply sumn_ext. intros j _. rewrite sumn_scal. reflexivity.
    + unfold norm1. rewrite <- sumn_scal_r. apply sumn_le. intros k _. rewrite <- sumn_scal_r. apply sumn_le. intros j Hj.
      apply Rmult_le_compat_l; [apply Rabs_pos|].
      apply (sumn_ge_term K (fun j => sumn K (fun l => Rabs (B j l))) j); [|exact Hj]. intros; apply sumn_nonneg; intros; apply Rabs_pos.
Qed.
Lemma norm1_ext K A B : (forall k l, (k < K)%nat -> (l < K)%nat -> A k l = B k l) -> norm1 K A = norm1 K B.
Proof. intro H. unfold norm1. apply sumn_ext. intros k Hk. apply sumn_ext. intros l Hl. rewrite H by assumption. reflexivity. Qed.
Lemma norm1_triangle K A B : norm1 K (fun k l => A k l + B k l) <= norm1 K A + norm1 K B.
Proof.
  unfold norm1. rewrite <- sumn_plus. apply sumn_le. intros k _. rewrite <- sumn_plus. apply sumn_le. intros l _. apply Rabs_triang.
Qed.
Lemma mmul_assoc K A B C k l : mmul K (mmul K A B) C k l = mmul K A (mmul K B C) k l.
Proof.
  unfold mmul. rewrite (sumn_ext K _ (fun j => sumn K (fun i => A k i * (B i j * C j l)))).
  - rewrite sumn_swap. apply sumn_ext. intros i _. rewrite sumn_scal. reflexivity.
  - intros j _. rewrite <- sumn_scal_r. apply sumn_ext. intros; ring.
Qed.

Section Inverse.
  Variables (K : nat) (A B : R -> nat -> nat -> R) (t r : R) (dB : nat -> nat -> R).
  Hypothesis radius : 0 < r.
  Hypothesis right_inverse : forall x, Rabs (x - t) < r -> forall k l, (k < K)%nat -> (l < K)%nat ->
    mmul K (B x) (A x) k l = if Nat.eqb k l then 1 else 0.
  Hypothesis left_inverse : forall x, Rabs (x - t) < r -> forall k l, (k < K)%nat -> (l < K)%nat ->
    mmul K (A x) (B x) k l = if Nat.eqb k l then 1 else 0.
  Hypothesis smooth : forall k l, (k < K)%nat -> (l < K)%nat -> derivable_pt_lim (fun x => B x k l) t (dB k l).

  Let change (h : R) : nat -> nat -> R := fun k l => B t k l - B (t + h) k l.

  Lemma inverse_change h k l : Rabs h < r -> (k < K)%nat -> (l < K)%nat ->
    A (t + h) k l - A t k l = mmul K (mmul K (A (t + h)) (change h)) (A t) k l.
  Proof.
    intros Hh Hk Hl.
    assert (R1 : Rabs (t + h - t) < r) by (replace (t + h - t) with h by ring; exact Hh).
    assert (R0 : Rabs (t - t) < r) by (rewrite Rminus_diag_eq, Rabs_R0 by reflexivity; exact radius).
    transitivity (mmul K (A (t + h)) (mmul K (B t) (A t)) k l - mmul K (mmul K (A (t + h)) (B (t + h))) (A t) k l).
    - f_equal.
      + unfold mmul at 1. rewrite (sumn_ext K _ (fun j => if Nat.eqb j l then A (t + h) k j else 0)).
        * rewrite sumn_delta by exact Hl. reflexivity.
        * intros j Hj. rewrite (right_inverse t R0 j l Hj Hl). destruct (Nat.eqb j l); ring.
      + unfold mmul at 1. rewrite (sumn_ext K _ (fun j => if Nat.eqb j k then A t j l else 0)).
        * rewrite (sumn_delta K k (fun j => A t j l)) by exact Hk. reflexivity.
        * intros j Hj. rewrite (left_inverse _ R1 k j Hk Hj). rewrite (Nat.eqb_sym k j). destruct (Nat.eqb j k); ring.
    - rewrite <- mmul_assoc. unfold mmul at 1 3 5. rewrite <- sumn_minus. apply sumn_ext. intros j _.
      unfold mmul, change. rewrite (sumn_ext K (fun j0 => A (t + h) k j0 * (B t j0 j - B (t + h) j0 j))
        (fun i => A (t + h) k i * B t i j - A (t + h) k i * B (t + h) i j)) by (intros; ring).
      rewrite sumn_minus. ring.
  Qed.

  Lemma change_lim k l : (k < K)%nat -> (l < K)%nat -> lim0 (fun h => change h k l) 0.
  Proof.
    intros Hk Hl. replace 0 with (-1 * 0) by ring.
    refine (lim0_ext _ _ _ _ (lim0_mult (fun _ => -1) _ _ _ (lim0_const (-1)) (lim0_change _ _ _ (smooth k l Hk Hl)))).
    exists 1. split; [lra|]. intros h _ _. unfold change. ring.
  Qed.
  Lemma change_norm : lim0 (fun h => norm1 K (change h)) 0.
  Proof.
    assert (Z : sumn K (fun _ => sumn K (fun _ => 0)) = 0) by (rewrite (sumn_ext K _ (fun _ => 0)) by (intros; apply sumn_zero); apply sumn_zero).
    unfold norm1. rewrite <- Z. apply (lim0_sumn K (fun k h => sumn K (fun l => Rabs (change h k l)))). intros k Hk.
    apply (lim0_sumn K (fun l h => Rabs (change h k l))). intros l Hl. apply lim0_abs, change_lim; assumption.
  Qed.

  Lemma inverse_bounded : exists d, 0 < d /\ forall h, h <> 0 -> Rabs h < d ->
    norm1 K (A (t + h)) <= 2 * norm1 K (A t) /\ Rabs h < r.
  Proof.
    set (a := norm1 K (A t)). assert (Pa : 0 <= a) by apply norm1_nonneg.
    assert (Q : 0 < / (2 * (a + 1))) by (apply Rinv_0_lt_compat; lra).
    destruct (proj1 (lim0_iff _ _) change_norm _ Q) as (d & Hd & H). exists (Rmin d r). split; [apply Rmin_glb_lt; assumption|].
    intros h Hh Hlt. assert (L1 := Rmin_l d r). assert (L2 := Rmin_r d r). split; [|lra].
    specialize (H h Hh ltac:(lra)). rewrite Rminus_0_r in H.
    set (c := norm1 K (change h)) in *. assert (Pc : 0 <= c) by apply norm1_nonneg. rewrite Rabs_pos_eq in H by exact Pc.
    set (x := norm1 K (A (t + h))). assert (Px : 0 <= x) by apply norm1_nonneg.
    assert (E : x <= a + x * c * a).
    { unfold x at 1. rewrite (norm1_ext K _ (fun k l => A t k l + mmul K (mmul K (A (t + h)) (change h)) (A t) k l)).
      - eapply Rle_trans; [apply norm1_triangle|]. fold a. apply Rplus_le_compat_l. eapply Rle_trans; [apply norm1_mul|].
        fold a. apply Rmult_le_compat_r; [exact Pa|]. unfold x, c. apply norm1_mul.
      - intros k l Hk Hl. rewrite <- inverse_change by (try assumption; lra). ring. }
    assert (CA : c * a <= / 2).
    { apply Rle_trans with (c * (a + 1)); [apply Rmult_le_compat_l; lra|]. apply Rle_trans with (/ (2 * (a + 1)) * (a + 1)).
      - apply Rmult_le_compat_r; lra.
      - right. field. lra. }
    nra.
  Qed.

  Lemma inverse_continuous k l : (k < K)%nat -> (l < K)%nat -> lim0 (fun h => A (t + h) k l) (A t k l).
  Proof.
    intros Hk Hl. replace (A t k l) with (A t k l + 0) by ring.
    apply (lim0_ext (fun h => A t k l + (A (t + h) k l - A t k l))); [exists 1; split; [lra|]; intros; ring|].
    apply lim0_plus; [apply lim0_const|]. set (a := norm1 K (A t)).
    apply (lim0_squeeze _ (fun h => 2 * a * a * norm1 K (change h))).
    - destruct inverse_bounded as (d & Hd & H). exists d. split; [exact Hd|]. intros h Hh Hlt. destruct (H h Hh Hlt) as [B1 B2].
      rewrite inverse_change by assumption. eapply Rle_trans; [apply (norm1_entry K (mmul K (mmul K (A (t + h)) (change h)) (A t))); assumption|].
      eapply Rle_trans; [apply norm1_mul|]. fold a. assert (Pa : 0 <= a) by apply norm1_nonneg.
      assert (X := norm1_mul K (A (t + h)) (change h)). assert (Pc := norm1_nonneg K (change h)). fold a in B1.
      apply Rle_trans with (norm1 K (A (t + h)) * norm1 K (change h) * a); [apply Rmult_le_compat_r; assumption|].
      apply Rle_trans with (2 * a * norm1 K (change h) * a); [|right; ring].
      apply Rmult_le_compat_r; [exact Pa|]. apply Rmult_le_compat_r; assumption.
    - replace 0 with (2 * a * a * 0) by ring. apply lim0_mult; [apply lim0_const|apply change_norm].
  Qed.

  Lemma inverse_derivable k l : (k < K)%nat -> (l < K)%nat ->
    derivable_pt_lim (fun x => A x k l) t (- mmul K (mmul K (A t) dB) (A t) k l).
  Proof.
    intros Hk Hl. apply lim0_deriv.
    replace (- mmul K (mmul K (A t) dB) (A t) k l) with (mmul K (mmul K (A t) (fun i j => - dB i j)) (A t) k l).
    2: { unfold mmul. rewrite <- sumn_opp. apply sumn_ext. intros j _. rewrite Ropp_mult_distr_l. f_equal. rewrite <- sumn_opp. apply sumn_ext. intros; ring. }
    apply (lim0_ext (fun h => mmul K (mmul K (A (t + h)) (fun i j => change h i j / h)) (A t) k l)).
    - exists r. split; [exact radius|]. intros h Hh Hlt. rewrite inverse_change by assumption. unfold Rdiv.
      unfold mmul. rewrite <- sumn_scal_r. apply sumn_ext. intros j _.
      transitivity (sumn K (fun i => A (t + h) k i * change h i j * / h) * A t j l).
      + f_equal. apply sumn_ext. intros; ring.
      + rewrite sumn_scal_r. ring.
    - unfold mmul. apply (lim0_sumn K (fun j h => sumn K (fun i => A (t + h) k i * (change h i j / h)) * A t j l)).
      intros j Hj. apply lim0_mult; [|apply lim0_const].
      apply (lim0_sumn K (fun i h => A (t + h) k i * (change h i j / h))). intros i Hi.
      apply lim0_mult; [apply inverse_continuous; assumption|].
      assert (D := proj1 (lim0_deriv _ _ _) (smooth i j Hi Hj)).
      replace (- dB i j) with (-1 * dB i j) by ring.
      refine (lim0_ext _ _ _ _ (lim0_mult (fun _ => -1) _ _ _ (lim0_const (-1)) D)).
      exists 1. split; [lra|]. intros h Hh _. unfold change. field. exact Hh.
  Qed.
End Inverse.

(** Right inverses of symmetric matrices are symmetric and left inverses. *)
Lemma symmetric_inverse K B A : (forall k l, (k < K)%nat -> (l < K)%nat -> B k l = B l k) -> inverse_of K B A ->
  forall k l, (k < K)%nat -> (l < K)%nat -> mmul K A B k l = if Nat.eqb k l then 1 else 0.
Proof.
  intros S I.
  assert (AT : forall k l, (k < K)%nat -> (l < K)%nat -> A k l = A l k).
  { intros k l Hk Hl.
    (* A' (B A) = A' and (A' B) A = A *)
    assert (E1 : mmul K (fun i j => A j i) (mmul K B A) k l = A l k).
    { unfold mmul at 1. rewrite (sumn_ext K _ (fun j => if Nat.eqb j l then A j k else 0)).
      - apply (sumn_delta K l (fun j => A j k)). exact Hl.
      - intros j Hj. unfold mmul. rewrite (I j l Hj Hl). destruct (Nat.eqb j l); ring. }
    assert (E2 : mmul K (mmul K (fun i j => A j i) B) A k l = A k l).
    { unfold mmul at 1. rewrite (sumn_ext K _ (fun j => if Nat.eqb j k then A j l else 0)).
      - apply (sumn_delta K k (fun j => A j l)). exact Hk.
      - intros j Hj. assert (Q := I j k Hj Hk). unfold mmul. rewrite (sumn_ext K (fun j0 => A j0 k * B j0 j) (fun i => B j i * A i k)).
        + rewrite Q. destruct (Nat.eqb j k); ring.
        + intros i Hi. rewrite (S i j Hi Hj). ring. }
    rewrite mmul_assoc in E2. congruence. }
  intros k l Hk Hl. assert (Q := I l k Hl Hk). unfold mmul. rewrite (sumn_ext K _ (fun j => B l j * A j k)).
  - rewrite Q. rewrite Nat.eqb_sym. reflexivity.
  - intros j Hj. rewrite (AT k j Hk Hj), (S j l Hj Hl). ring.
Qed.

(** ** Derivability *)
Definition dv (f : R -> R) (t : R) : Prop := exists d, derivable_pt_lim f t d.
Lemma finite_choice K (P : nat -> R -> Prop) : (forall k, (k < K)%nat -> exists d, P k d) -> exists f, forall k, (k < K)%nat -> P k (f k).
Proof.
  induction K as [|K IH]; intro H; [exists (fun _ => 0); intros; lia|].
  destruct (IH ltac:(intros; apply H; lia)) as [f F]. destruct (H K ltac:(lia)) as [d D].
  exists (fun k => if Nat.eqb k K then d else f k). intros k Hk. destruct (Nat.eqb_spec k K) as [->|]; [exact D|apply F; lia].
Qed.
Lemma dv_sumn K (f : nat -> R -> R) t : (forall k, (k < K)%nat -> dv (f k) t) -> dv (fun x => sumn K (fun k => f k x)) t.
Proof. intro H. destruct (finite_choice K (fun k d => derivable_pt_lim (f k) t d) H) as [d D]. exists (sumn K d). apply deriv_sumn, D. Qed.
Lemma dv_mult f g t : dv f t -> dv g t -> dv (fun x => f x * g x) t.
Proof. intros [d D] [e E]. eexists. apply deriv_mult; eassumption. Qed.
Lemma dv_const c t : dv (fun _ => c) t.
Proof. exists 0. apply derivable_pt_lim_const. Qed.
Lemma deriv_plus (f g : R -> R) t d e : derivable_pt_lim f t d -> derivable_pt_lim g t e -> derivable_pt_lim (fun x => f x + g x) t (d + e).
Proof. intros H K. exact (derivable_pt_lim_plus f g t d e H K). Qed.

(** ** Derivatives of differences *)
Section Path.
  Variables (lag : nat -> nat) (phi : R -> nat -> nat -> R) (at_phi : option (nat * nat)) (t : R).
  Hypothesis phi_smooth : forall i j, (i < 2)%nat -> (j < 2)%nat -> derivable_pt_lim (fun x => phi x i j) t (phi_derivative at_phi i j).
  Hypothesis in_phi : forall i j, at_phi = Some (i, j) -> (i < 2)%nat /\ (j < 2)%nat.

  Lemma quasi_deriv (x o : R -> nat -> R) (dx do : nat -> R) i j r : (i < 2)%nat -> (j < 2)%nat ->
    (forall q, derivable_pt_lim (fun s => x s q) t (dx q)) -> (forall q, derivable_pt_lim (fun s => o s q) t (do q)) ->
    derivable_pt_lim (fun s => quasi lag (x s) (phi s i i) (o s) (phi s i j) r) t
      (quasi lag dx (phi t i i) do (phi t i j) r - phi_derivative at_phi i i * x t (lag r) - phi_derivative at_phi i j * o t (lag r)).
  Proof.
    intros Hi Hj Hx Ho. unfold quasi. eapply deriv_eq.
    - apply (deriv_minus (fun s => x s r - phi s i i * x s (lag r)) (fun s => phi s i j * o s (lag r))).
      + apply (deriv_minus (fun s => x s r) (fun s => phi s i i * x s (lag r))); [apply Hx|].
        apply (deriv_mult (fun s => phi s i i) (fun s => x s (lag r))); [apply phi_smooth; assumption|apply Hx].
      + apply (deriv_mult (fun s => phi s i j) (fun s => o s (lag r))); [apply phi_smooth; assumption|apply Ho].
    - cbv beta. ring.
  Qed.

  Definition contribution (s : side) (ty : moment_type) (x o : nat -> R) (r : nat) : R :=
    match at_phi with
    | None => 0
    | Some (i, j) => if Nat.eqb i (row_of s) then difference_derivative lag ty (if Nat.eqb j 0 then x else o) r else 0
    end.

  Lemma side_deriv s ty (x o : R -> nat -> R) (dx do : nat -> R) r :
    (forall q, derivable_pt_lim (fun s => x s q) t (dx q)) -> (forall q, derivable_pt_lim (fun s => o s q) t (do q)) ->
    derivable_pt_lim (fun u => difference_side lag (phi u) s ty (x u) (o u) r) t
      (difference_side lag (phi t) s ty dx do r + contribution s ty (x t) (o t) r).
  Proof.
    intros Hx Ho.
    assert (P : forall i j, (i < 2)%nat -> (j < 2)%nat -> phi_derivative at_phi i j = match at_phi with Some (a, b) => if (Nat.eqb a i && Nat.eqb b j)%bool then 1 else 0 | None => 0 end).
    { intros i j Hi Hj. unfold phi_derivative. destruct at_phi as [[a b]|]; [|reflexivity]. rewrite (Nat.eqb_sym i a), (Nat.eqb_sym j b). reflexivity. }
    assert (Q : forall r, exists l, (forall ty', ty' = Innovations -> has_lag lag r = true -> l = difference_side lag (phi t) s ty' dx do r + contribution s ty' (x t) (o t) r) /\
      derivable_pt_lim (fun u => match s with Demand => quasi lag (x u) (phi u 0%nat 0%nat) (o u) (phi u 0%nat 1%nat) r
                                            | Supply => quasi lag (o u) (phi u 1%nat 1%nat) (x u) (phi u 1%nat 0%nat) r end) t l /\
      l = (match s with Demand => quasi lag dx (phi t 0%nat 0%nat) do (phi t 0%nat 1%nat) r | Supply => quasi lag do (phi t 1%nat 1%nat) dx (phi t 1%nat 0%nat) r end)
        + match at_phi with Some (i, j) => if Nat.eqb i (row_of s) then - (if Nat.eqb j 0 then x t else o t) (lag r) else 0 | None => 0 end).
    { intro q. destruct s.
      - eexists. split; [|split; [apply (quasi_deriv x o dx do 0 1 q ltac:(lia) ltac:(lia) Hx Ho)|]].
        + intros ty' -> L. cbn [difference_side difference]. rewrite L. unfold contribution. cbn [difference_derivative row_of]. rewrite L.
          rewrite !P by lia. destruct at_phi as [[a b]|]; [|ring]. destruct (in_phi a b eq_refl) as [Ia Ib].
          destruct a as [|[|a]]; try lia; destruct b as [|[|b]]; try lia; cbn [Nat.eqb andb]; ring.
        + rewrite !P by lia. cbn [row_of]. destruct at_phi as [[a b]|]; [|ring]. destruct (in_phi a b eq_refl) as [Ia Ib].
          destruct a as [|[|a]]; try lia; destruct b as [|[|b]]; try lia; cbn [Nat.eqb andb]; ring.
      - eexists. split; [|split; [apply (quasi_deriv o x do dx 1 0 q ltac:(lia) ltac:(lia) Ho Hx)|]].
        + intros ty' -> L. cbn [difference_side difference]. rewrite L. unfold contribution. cbn [difference_derivative row_of]. rewrite L.
          rewrite !P by lia. destruct at_phi as [[a b]|]; [|ring]. destruct (in_phi a b eq_refl) as [Ia Ib].
          destruct a as [|[|a]]; try lia; destruct b as [|[|b]]; try lia; cbn [Nat.eqb andb]; ring.
        + rewrite !P by lia. cbn [row_of]. destruct at_phi as [[a b]|]; [|ring]. destruct (in_phi a b eq_refl) as [Ia Ib].
          destruct a as [|[|a]]; try lia; destruct b as [|[|b]]; try lia; cbn [Nat.eqb andb]; ring. }
    destruct ty.
    - assert (C : contribution s Levels (x t) (o t) r = 0) by (unfold contribution; destruct at_phi as [[a b]|]; [destruct (Nat.eqb a (row_of s)); reflexivity|reflexivity]).
      rewrite C, Rplus_0_r. destruct s; cbn [difference_side difference]; [apply Hx|apply Ho].
    - destruct (has_lag lag r) eqn:L.
      + destruct (Q r) as (l & E & D & _). rewrite <- (E Innovations eq_refl L).
        destruct s; cbn [difference_side difference]; rewrite L; exact D.
      + assert (C : contribution s Innovations (x t) (o t) r = 0).
        { unfold contribution. destruct at_phi as [[a b]|]; [|reflexivity]. cbn [difference_derivative]. rewrite L. destruct (Nat.eqb a (row_of s)); reflexivity. }
        rewrite C. eapply deriv_eq; [|destruct s; cbn [difference_side difference]; rewrite L; symmetry; apply Rplus_0_r].
        destruct s; cbn [difference_side difference]; rewrite L; apply (derivable_pt_lim_const 0).
    - destruct (has_second_lag lag r) eqn:L.
      + destruct (Q r) as (l & _ & D & E), (Q (lag r)) as (l' & _ & D' & E').
        apply (deriv_eq _ t (l - l')).
        * destruct s; cbn [difference_side difference]; rewrite L.
          -- apply (deriv_minus _ (fun u => quasi lag (x u) (phi u 0%nat 0%nat) (o u) (phi u 0%nat 1%nat) (lag r)) t l l' D D').
          -- apply (deriv_minus _ (fun u => quasi lag (o u) (phi u 1%nat 1%nat) (x u) (phi u 1%nat 0%nat) (lag r)) t l l' D D').
        * rewrite E, E'. unfold contribution. cbn [difference_derivative]. rewrite L.
          destruct s; cbn [difference_side difference row_of]; rewrite L; destruct at_phi as [[a b]|]; try ring;
          destruct (Nat.eqb a _); ring.
      + assert (C : contribution s Differenced (x t) (o t) r = 0).
        { unfold contribution. destruct at_phi as [[a b]|]; [|reflexivity]. cbn [difference_derivative]. rewrite L. destruct (Nat.eqb a (row_of s)); reflexivity. }
        rewrite C. eapply deriv_eq; [|destruct s; cbn [difference_side difference]; rewrite L; symmetry; apply Rplus_0_r].
        destruct s; cbn [difference_side difference]; rewrite L; apply (derivable_pt_lim_const 0).
  Qed.
  Lemma side_zero s ty r : difference_side lag (phi t) s ty (fun _ => 0) (fun _ => 0) r = 0.
  Proof.
    destruct s, ty; cbn [difference_side difference]; try reflexivity;
    [destruct (has_lag lag r)|destruct (has_second_lag lag r)|destruct (has_lag lag r)|destruct (has_second_lag lag r)]; unfold quasi; ring.
  Qed.
End Path.
Lemma contribution_sum lag at_phi s ty K x g b o h r :
    contribution lag at_phi s ty (fun r => x r - sumn K (fun k => g k r * b k)) (fun r => o r - sumn K (fun k => h k r * b k)) r
    = contribution lag at_phi s ty x o r - sumn K (fun k => contribution lag at_phi s ty (g k) (h k) r * b k).
  Proof.
    unfold contribution. destruct at_phi as [[i j]|].
    - destruct (Nat.eqb i (row_of s)); [|rewrite (sumn_ext K _ (fun _ => 0)) by (intros; ring); rewrite sumn_zero; ring].
      destruct (Nat.eqb j 0); apply derivative_sum.
    - rewrite (sumn_ext K _ (fun _ => 0)) by (intros; ring). rewrite sumn_zero. ring.
  Qed.


(** ** The gradient *)
Lemma mean_g_form N lag K1 K X1 X3 ms W inv ad as_ phi delta costs m :
  mean_g N lag K1 K X1 X3 ms W inv ad as_ phi delta costs m
  = (Zy N lag ms ad as_ phi delta costs m
     - sumn K (fun k => ZX N lag K1 X1 X3 ms phi m k * parameters N lag K1 K X1 X3 ms W inv ad as_ phi delta costs k)) / INR N.
Proof.
  unfold mean_g. f_equal. unfold residual, Zy, ZX. set (b := parameters _ _ _ _ _ _ _ _ _ _ _ _ _ _).
  rewrite (sumn_ext N _ (fun r => z ms m r * difference_side lag phi (side_of ms m) (type_of ms m) (ad delta) (as_ costs) r
    - sumn K (fun k => z ms m r * difference_side lag phi (side_of ms m) (type_of ms m) (extended_X1 K1 X1 k) (extended_X3 K1 X3 k) r * b k))).
  - rewrite sumn_minus. f_equal. rewrite sumn_swap. apply sumn_ext. intros k _. rewrite sumn_scal_r. reflexivity.
  - intros r _. rewrite Rmult_minus_distr_r, <- sumn_scal_r. f_equal; [ring|]. apply sumn_ext. intros; ring.
Qed.
Lemma objective_form N lag K1 K X1 X3 ms W inv ad as_ scale phi delta costs :
  let e m := Zy N lag ms ad as_ phi delta costs m
     - sumn K (fun k => ZX N lag K1 X1 X3 ms phi m k * parameters N lag K1 K X1 X3 ms W inv ad as_ phi delta costs k) in
  objective N lag K1 K X1 X3 ms W inv ad as_ scale phi delta costs
  = scale / (INR N * INR N) * sumn (M ms) (fun m => e m * sumn (M ms) (fun m' => W m m' * e m')).
Proof.
  intro e. unfold objective. rewrite <- (sumn_scal (M ms) (scale / _)), <- (sumn_scal (M ms) scale). apply sumn_ext. intros m _.
  rewrite mean_g_form. fold (e m). rewrite (sumn_ext _ _ (fun m' => / INR N * (W m m' * e m'))).
  - rewrite sumn_scal. unfold Rdiv. rewrite Rinv_mult. ring.
  - intros m' _. rewrite mean_g_form. fold (e m'). unfold Rdiv. ring.
Qed.

Lemma information_symmetric N lag K1 X1 X3 ms W phi : symmetric_weights (M ms) W -> forall k l,
  information N lag K1 X1 X3 ms W phi k l = information N lag K1 X1 X3 ms W phi l k.
Proof.
  intros S k l. unfold information.
  transitivity (sumn (M ms) (fun m => sumn (M ms) (fun m' => ZX N lag K1 X1 X3 ms phi m k * (W m m' * ZX N lag K1 X1 X3 ms phi m' l)))).
  - apply sumn_ext. intros. symmetry. apply sumn_scal.
  - rewrite sumn_swap. apply sumn_ext. intros m Hm. rewrite <- sumn_scal. apply sumn_ext. intros m' Hm'. rewrite (S m' m Hm' Hm). ring.
Qed.

Lemma first_order N lag K1 K X1 X3 ms W inv ad as_ phi delta costs :
  inverse_of K (information N lag K1 X1 X3 ms W phi) (inv (information N lag K1 X1 X3 ms W phi)) ->
  forall k, (k < K)%nat ->
  sumn (M ms) (fun i => ZX N lag K1 X1 X3 ms phi i k * sumn (M ms) (fun j => W i j *
    (Zy N lag ms ad as_ phi delta costs j - sumn K (fun k => ZX N lag K1 X1 X3 ms phi j k
       * parameters N lag K1 K X1 X3 ms W inv ad as_ phi delta costs k)))) = 0.
Proof.
  intros I k Hk. set (B := information N lag K1 X1 X3 ms W phi) in *. set (A := inv B) in *.
  set (C := ZX N lag K1 X1 X3 ms phi). set (y := Zy N lag ms ad as_ phi delta costs).
  set (s := fun l => sumn (M ms) (fun m => C m l * sumn (M ms) (fun m' => W m m' * y m'))).
  set (b := parameters N lag K1 K X1 X3 ms W inv ad as_ phi delta costs).
  assert (Eb : forall l, b l = sumn K (fun j => A l j * s j)) by reflexivity.
  transitivity (s k - sumn K (fun l => B k l * b l)).
  - transitivity (sumn (M ms) (fun i => C i k * sumn (M ms) (fun j => W i j * y j)
        - sumn K (fun l => C i k * sumn (M ms) (fun j => W i j * C j l) * b l))).
    + apply sumn_ext. intros i _. rewrite (sumn_ext (M ms) (fun j => W i j * (y j - sumn K (fun k0 => C j k0 * b k0)))
        (fun j => W i j * y j - sumn K (fun l => W i j * C j l * b l))).
      * rewrite sumn_minus, (sumn_swap (M ms) K). rewrite Rmult_minus_distr_l. f_equal. rewrite <- sumn_scal. apply sumn_ext. intros l _. rewrite sumn_scal_r. ring.
      * intros j _. rewrite Rmult_minus_distr_l. f_equal. rewrite <- sumn_scal. apply sumn_ext. intros; ring.
    + rewrite sumn_minus. f_equal. rewrite sumn_swap. apply sumn_ext. intros l _. rewrite sumn_scal_r. reflexivity.
  - rewrite (sumn_ext K (fun l => B k l * b l) (fun l => sumn K (fun j => B k l * A l j * s j))).
    + rewrite sumn_swap. rewrite (sumn_ext K _ (fun j => if Nat.eqb j k then s j else 0)).
      * rewrite (sumn_delta K k s) by exact Hk. ring.
      * intros j Hj. rewrite sumn_scal_r. rewrite (I k j Hk Hj), (Nat.eqb_sym k j). destruct (Nat.eqb j k); ring.
    + intros l _. rewrite Eb, <- sumn_scal. apply sumn_ext. intros; ring.
Qed.

Section Gradient.
  Variables (N : nat) (lag : nat -> nat) (K1 K : nat) (X1 X3 : nat -> nat -> R) (ms : list moment) (W : nat -> nat -> R)
    (inv : (nat -> nat -> R) -> nat -> nat -> R) (scale : R)
    (phi : R -> nat -> nat -> R) (delta costs : R -> nat -> R) (at_phi : option (nat * nat)) (t : R)
    (xi_jacobian omega_jacobian : nat -> R).
  Hypothesis weights : symmetric_weights (M ms) W.
  Hypothesis exact : exists r, 0 < r /\ forall x, Rabs (x - t) < r ->
    inverse_of K (information N lag K1 X1 X3 ms W (phi x)) (inv (information N lag K1 X1 X3 ms W (phi x))).
  Hypothesis phi_smooth : forall i j, (i < 2)%nat -> (j < 2)%nat -> derivable_pt_lim (fun x => phi x i j) t (phi_derivative at_phi i j).
  Hypothesis in_phi : forall i j, at_phi = Some (i, j) -> (i < 2)%nat /\ (j < 2)%nat.
  Hypothesis delta_smooth : forall r, derivable_pt_lim (fun x => delta x r) t (xi_jacobian r).
  Hypothesis costs_smooth : forall r, derivable_pt_lim (fun x => costs x r) t (omega_jacobian r).
  Notation id_ := (fun x : nat -> R => x).

  Lemma Zy_deriv m : derivable_pt_lim (fun x => Zy N lag ms id_ id_ (phi x) (delta x) (costs x) m) t
    (sumn N (fun r => z ms m r * (difference_side lag (phi t) (side_of ms m) (type_of ms m) xi_jacobian omega_jacobian r
       + contribution lag at_phi (side_of ms m) (type_of ms m) (delta t) (costs t) r))).
  Proof.
    unfold Zy. apply (deriv_sumn N (fun r x => z ms m r * difference_side lag (phi x) (side_of ms m) (type_of ms m) (delta x) (costs x) r)).
    intros r _. apply (deriv_scal (fun x => difference_side lag (phi x) (side_of ms m) (type_of ms m) (delta x) (costs x) r)).
    apply side_deriv; assumption.
  Qed.
  Lemma ZX_deriv m k : derivable_pt_lim (fun x => ZX N lag K1 X1 X3 ms (phi x) m k) t
    (sumn N (fun r => z ms m r * contribution lag at_phi (side_of ms m) (type_of ms m) (extended_X1 K1 X1 k) (extended_X3 K1 X3 k) r)).
  Proof.
    unfold ZX. apply (deriv_sumn N (fun r x => z ms m r * difference_side lag (phi x) (side_of ms m) (type_of ms m) (extended_X1 K1 X1 k) (extended_X3 K1 X3 k) r)).
    intros r _. apply (deriv_scal (fun x => difference_side lag (phi x) (side_of ms m) (type_of ms m) (extended_X1 K1 X1 k) (extended_X3 K1 X3 k) r)).
    eapply deriv_eq; [apply (side_deriv lag phi at_phi t phi_smooth in_phi (side_of ms m) (type_of ms m)
      (fun _ => extended_X1 K1 X1 k) (fun _ => extended_X3 K1 X3 k) (fun _ => 0) (fun _ => 0) r); intro; apply derivable_pt_lim_const|].
    rewrite side_zero. ring.
  Qed.
  Lemma information_dv k l : dv (fun x => information N lag K1 X1 X3 ms W (phi x) k l) t.
  Proof.
    unfold information. apply (dv_sumn (M ms) (fun m x => ZX N lag K1 X1 X3 ms (phi x) m k * sumn (M ms) (fun m' => W m m' * ZX N lag K1 X1 X3 ms (phi x) m' l))).
    intros m _. apply dv_mult; [eexists; apply ZX_deriv|].
    apply (dv_sumn (M ms) (fun m' x => W m m' * ZX N lag K1 X1 X3 ms (phi x) m' l)). intros m' _. apply dv_mult; [apply dv_const|eexists; apply ZX_deriv].
  Qed.
  Lemma inverse_dv k l : (k < K)%nat -> (l < K)%nat -> dv (fun x => inv (information N lag K1 X1 X3 ms W (phi x)) k l) t.
  Proof.
    intros Hk Hl. destruct exact as (r & Hr & E).
    destruct (finite_choice (K * K) (fun q d => derivable_pt_lim (fun x => information N lag K1 X1 X3 ms W (phi x) (q / K) (q mod K)) t d)
      (fun q _ => information_dv _ _)) as [f F].
    eexists. apply (inverse_derivable K (fun x => inv (information N lag K1 X1 X3 ms W (phi x))) (fun x => information N lag K1 X1 X3 ms W (phi x)) t r
      (fun i j => f (i * K + j)%nat) Hr).
    - exact E.
    - intros x Hx. apply symmetric_inverse; [intros; apply information_symmetric, weights|apply E, Hx].
    - intros i j Hi Hj. assert (Q := F (i * K + j)%nat ltac:(nia)). cbv beta in Q.
      rewrite Nat.div_add_l, Nat.div_small, Nat.add_0_r in Q by lia.
      rewrite Nat.add_comm, Nat.mod_add, Nat.mod_small in Q by lia. rewrite (Nat.add_comm (i * K) j). exact Q.
    - exact Hk.
    - exact Hl.
  Qed.
  Lemma parameters_dv k : (k < K)%nat -> dv (fun x => parameters N lag K1 K X1 X3 ms W inv id_ id_ (phi x) (delta x) (costs x) k) t.
  Proof.
    intro Hk. unfold parameters. apply (dv_sumn K (fun l x => inv (information N lag K1 X1 X3 ms W (phi x)) k l *
      sumn (M ms) (fun m => ZX N lag K1 X1 X3 ms (phi x) m l * sumn (M ms) (fun m' => W m m' * Zy N lag ms id_ id_ (phi x) (delta x) (costs x) m')))).
    intros l Hl. apply dv_mult; [apply inverse_dv; assumption|].
    apply (dv_sumn (M ms) (fun m x => ZX N lag K1 X1 X3 ms (phi x) m l * sumn (M ms) (fun m' => W m m' * Zy N lag ms id_ id_ (phi x) (delta x) (costs x) m'))).
    intros m _. apply dv_mult; [eexists; apply ZX_deriv|].
    apply (dv_sumn (M ms) (fun m' x => W m m' * Zy N lag ms id_ id_ (phi x) (delta x) (costs x) m')). intros m' _.
    apply dv_mult; [apply dv_const|eexists; apply Zy_deriv].
  Qed.

  Lemma gradient_correct : derivable_pt_lim
    (fun x => objective N lag K1 K X1 X3 ms W inv id_ id_ scale (phi x) (delta x) (costs x)) t
    (gradient N lag K1 K X1 X3 ms W inv id_ id_ scale (phi t) (delta t) (costs t) xi_jacobian omega_jacobian at_phi).
  Proof.
    destruct (finite_choice K _ parameters_dv) as [db D].
    pose (e := fun x m => Zy N lag ms id_ id_ (phi x) (delta x) (costs x) m
     - sumn K (fun k => ZX N lag K1 X1 X3 ms (phi x) m k * parameters N lag K1 K X1 X3 ms W inv id_ id_ (phi x) (delta x) (costs x) k)).
    eapply deriv_eq.
    - apply (dlim_ext (fun x => scale / (INR N * INR N) * sumn (M ms) (fun m => e x m * sumn (M ms) (fun m' => W m m' * e x m')))).
      + intro x. symmetry. apply objective_form.
      + apply deriv_scal. unfold e.
        eapply (envelope (M ms) K W (fun m x => Zy N lag ms id_ id_ (phi x) (delta x) (costs x) m) (fun m k x => ZX N lag K1 X1 X3 ms (phi x) m k)
          (fun k x => parameters N lag K1 K X1 X3 ms W inv id_ id_ (phi x) (delta x) (costs x) k)).
        * exact weights.
        * intros m _. apply Zy_deriv.
        * intros m k _ _. apply ZX_deriv.
        * exact D.
        * apply first_order. destruct exact as (r & Hr & E). apply E. rewrite Rminus_diag_eq, Rabs_R0 by reflexivity. exact Hr.
    - cbv beta. unfold gradient.
      set (b := parameters N lag K1 K X1 X3 ms W inv id_ id_ (phi t) (delta t) (costs t)).
      rewrite <- !Rmult_assoc, (Rmult_comm _ 2), (Rmult_comm scale 2), !Rmult_assoc. f_equal.
      rewrite <- (sumn_scal (M ms) (scale / _)), <- (sumn_scal (M ms) scale). apply sumn_ext. intros m _.
      assert (G : mean_G N lag K1 K X1 X3 ms W inv id_ id_ (phi t) (delta t) (costs t) xi_jacobian omega_jacobian at_phi m
        = (sumn N (fun r => z ms m r * (difference_side lag (phi t) (side_of ms m) (type_of ms m) xi_jacobian omega_jacobian r
       + contribution lag at_phi (side_of ms m) (type_of ms m) (delta t) (costs t) r))
          - sumn K (fun k => sumn N (fun r => z ms m r * contribution lag at_phi (side_of ms m) (type_of ms m) (extended_X1 K1 X1 k) (extended_X3 K1 X3 k) r) * b k)) / INR N).
      { unfold mean_G. f_equal.
        rewrite (sumn_ext K _ (fun k => sumn N (fun r => z ms m r * contribution lag at_phi (side_of ms m) (type_of ms m) (extended_X1 K1 X1 k) (extended_X3 K1 X3 k) r * b k)))
          by (intros; symmetry; apply sumn_scal_r).
        rewrite (sumn_swap K N), <- sumn_minus. apply sumn_ext. intros r _.
        transitivity (z ms m r * (difference_side lag (phi t) (side_of ms m) (type_of ms m) xi_jacobian omega_jacobian r
          + contribution lag at_phi (side_of ms m) (type_of ms m) (fun r => delta t r - sumn K (fun k => extended_X1 K1 X1 k r * b k))
              (fun r => costs t r - sumn K (fun k => extended_X3 K1 X3 k r * b k)) r)).
        - unfold jacobian. rewrite Rmult_comm. reflexivity.
        - rewrite contribution_sum.
          rewrite (sumn_ext K (fun k => z ms m r * contribution lag at_phi (side_of ms m) (type_of ms m) (extended_X1 K1 X1 k) (extended_X3 K1 X3 k) r * b k)
            (fun k => z ms m r * (contribution lag at_phi (side_of ms m) (type_of ms m) (extended_X1 K1 X1 k) (extended_X3 K1 X3 k) r * b k))) by (intros; ring).
          rewrite sumn_scal. ring. }
      rewrite G. fold (e t). 
      rewrite (sumn_ext (M ms) (fun m' => W m m' * mean_g N lag K1 K X1 X3 ms W inv id_ id_ (phi t) (delta t) (costs t) m')
        (fun m' => / INR N * (W m m' * (Zy N lag ms id_ id_ (phi t) (delta t) (costs t) m' - sumn K (fun k => ZX N lag K1 X1 X3 ms (phi t) m' k * b k))))).
      + rewrite sumn_scal. unfold Rdiv. rewrite Rinv_mult. ring.
      + intros m' _. rewrite mean_g_form. fold b. unfold Rdiv. ring.
  Qed.
End Gradient.

(** Residuals are errors of moments, whatever is absorbed. *)
Lemma residual_errors N lag K1 K X1 X3 ms W inv ad as_ phi delta costs m r :
  moment_error lag phi (fun r c => if Nat.eqb c 0 then xi N lag K1 K X1 X3 ms W inv ad as_ phi delta costs r
                                   else omega N lag K1 K X1 X3 ms W inv ad as_ phi delta costs r)
    (type_of ms m) (row_of (side_of ms m)) r
    (residual lag K1 K X1 X3 ms ad as_ phi delta costs (parameters N lag K1 K X1 X3 ms W inv ad as_ phi delta costs) m r).
Proof.
  unfold residual. rewrite <- side_sum. exact (difference_error lag phi _ (side_of ms m) (type_of ms m) r).
Qed.

Lemma innovation_autoregressive lag phi draws errors c r : autoregressive lag phi draws errors r -> innovation lag phi errors c r = draws r c.
Proof. intro A. unfold innovation. rewrite (A c). ring. Qed.
Lemma moment_error_unique lag phi errors ty c r u v : moment_error lag phi errors ty c r u -> moment_error lag phi errors ty c r v -> u = v.
Proof.
  destruct ty; cbn [moment_error].
  - congruence.
  - intros [A B] [C D]. destruct (Nat.eq_dec (lag r) r) as [E|E]; [rewrite (A E), (C E)|rewrite (B E), (D E)]; reflexivity.
  - intros [A B] [C D]. destruct (Nat.eq_dec (lag r) r) as [E|E]; [rewrite (A (or_introl E)), (C (or_introl E)); reflexivity|].
    destruct (Nat.eq_dec (lag (lag r)) (lag r)) as [F|F]; [rewrite (A (or_intror F)), (C (or_intror F))|rewrite (B E F), (D E F)]; reflexivity.
Qed.

(** ** Fixed effects on the other side *)
Definition demean (x : nat -> R) : nat -> R := fun r => x r - (x 0%nat + x 1%nat + x 2%nat) / 3.
Definition wlag (r : nat) : nat := match r with 1 => 0 | _ => r end%nat.
Definition wX1 (r : nat) : R := match r with 0%nat => 1 | 2%nat => -1 | _ => 0 end.
Definition wms : list moment :=
  moments [(Levels, 1%nat)] [(Innovations, 1%nat)] [wX1] [fun r => match r with 1%nat => 1 | _ => 0 end].
Definition wphi (i j : nat) : R := if (Nat.eqb i 1 && Nat.eqb j 0)%bool then 1 else 0.
Definition wW (i j : nat) : R := if Nat.eqb i j then 1 else 0.
Definition winverse (B : nat -> nat -> R) (k l : nat) : R := / B 0%nat 0%nat.
Definition wdelta (t : R) (r : nat) : R := match r with 0%nat => t | _ => 0 end.
Definition wcosts (r : nat) : R := match r with 1%nat => 1 | _ => 0 end.
Definition wjacobian (r : nat) : R := match r with 0%nat => 1 | _ => 0 end.

Lemma winformation : information 3 wlag 1 (fun r _ => wX1 r) (fun _ _ => 0) wms wW wphi 0 0 = 5.
Proof.
  unfold information, ZX, M, wms, moments, side_of, type_of, z. cbn.
  unfold extended_X1, extended_X3, quasi, wphi, wW. cbn. ring.
Qed.
Lemma wobjective t : objective 3 wlag 1 1 (fun r _ => wX1 r) (fun _ _ => 0) wms wW winverse demean (fun x => x) 1 wphi (wdelta t) wcosts
  = (2 - t / 3) * (2 - t / 3) / 45.
Proof.
  rewrite objective_form. unfold parameters, winverse. cbn [sumn].
  change (fun k l => information 3 wlag 1 (fun r _ => wX1 r) (fun _ _ => 0) wms wW wphi k l) with (information 3 wlag 1 (fun r _ => wX1 r) (fun _ _ => 0) wms wW wphi).
  rewrite winformation. unfold ZX, Zy, M, wms, moments, side_of, type_of, z. cbn.
  unfold extended_X1, extended_X3, quasi, wphi, wW, demean. cbn. field.
Qed.
Lemma wgradient t : gradient 3 wlag 1 1 (fun r _ => wX1 r) (fun _ _ => 0) wms wW winverse demean (fun x => x) 1 wphi (wdelta t) wcosts
    wjacobian (fun _ => 0) None = - 2 * (2 - t / 3) / 45.
Proof.
  unfold gradient, mean_G, jacobian. rewrite !Rmult_1_l.
  rewrite (sumn_ext _ _ (fun m => sumn 3 (fun r => (difference_side wlag wphi (side_of wms m) (type_of wms m) wjacobian (fun _ => 0) r + 0) * z wms m r) / INR 3 *
    sumn (M wms) (fun m' => wW m m' * ((Zy 3 wlag wms demean (fun x => x) wphi (wdelta t) wcosts m'
     - sumn 1 (fun k => ZX 3 wlag 1 (fun r _ => wX1 r) (fun _ _ => 0) wms wphi m' k * parameters 3 wlag 1 1 (fun r _ => wX1 r) (fun _ _ => 0) wms wW winverse demean (fun x => x) wphi (wdelta t) wcosts k)) / INR 3)))).
  2: { intros m _. f_equal. apply sumn_ext. intros m' _. rewrite mean_g_form. reflexivity. }
  unfold parameters, winverse. cbn [sumn].
  rewrite winformation. unfold ZX, Zy, M, wms, moments, side_of, type_of, z. cbn.
  unfold extended_X1, extended_X3, quasi, wphi, wW, demean. cbn. field.
Qed.

(* ---------- Errors are those of the two equations ---------- *)

Lemma sumn_parts K1 K3 f : sumn (K1 + K3) f = sumn K1 f + sumn K3 (fun k => f (K1 + k)%nat).
Proof. induction K3 as [|n IH]; [rewrite Nat.add_0_r; cbn; ring|]. rewrite Nat.add_succ_r. cbn [sumn]. rewrite IH. ring. Qed.
Lemma xi_equation N lag K1 K3 X1 X3 ms W inverse ad as_ phi delta costs r :
  xi N lag K1 (K1 + K3) X1 X3 ms W inverse ad as_ phi delta costs r =
  ad delta r - sumn K1 (fun k => X1 r k * parameters N lag K1 (K1 + K3) X1 X3 ms W inverse ad as_ phi delta costs k).
Proof.
  unfold xi. f_equal. rewrite sumn_parts. unfold extended_X1.
  rewrite (sumn_ext K3 _ (fun _ => 0)).
  2: { intros k _. replace (Nat.ltb (K1 + k) K1) with false by (symmetry; apply Nat.ltb_ge; lia). ring. }
  rewrite sumn_zero, Rplus_0_r. apply sumn_ext. intros k Hk. apply Nat.ltb_lt in Hk. rewrite Hk. reflexivity.
Qed.
Lemma omega_equation N lag K1 K3 X1 X3 ms W inverse ad as_ phi delta costs r :
  omega N lag K1 (K1 + K3) X1 X3 ms W inverse ad as_ phi delta costs r =
  as_ costs r - sumn K3 (fun k => X3 r k * parameters N lag K1 (K1 + K3) X1 X3 ms W inverse ad as_ phi delta costs (K1 + k)%nat).
Proof.
  unfold omega. f_equal. rewrite sumn_parts. unfold extended_X3.
  rewrite (sumn_ext K1 _ (fun _ => 0)) by (intros k Hk; apply Nat.ltb_lt in Hk; rewrite Hk; ring).
  rewrite sumn_zero, Rplus_0_l. apply sumn_ext. intros k Hk. replace (Nat.ltb (K1 + k) K1) with false by (symmetry; apply Nat.ltb_ge; lia).
  replace (K1 + k - K1)%nat with k by lia. reflexivity.
Qed.

(** Columns are split completely. *)
Lemma split_columns_all : forall s types Z, list_sum (map snd types) = List.length Z ->
  map snd (split_columns s types Z) = Z /\
  map fst (split_columns s types Z) = map (pair s) (flat_map (fun tc => repeat (fst tc) (snd tc)) types).
Proof.
  intros s types. induction types as [|[ty c] l IH]; intros Z H; cbn in H |- *; [destruct Z; [split; reflexivity|discriminate]|].
  fold (list_sum (map snd l)) in H. rewrite !map_app, !map_map. cbn.
  destruct (IH (skipn c Z)) as [E1 E2]; [rewrite skipn_length; lia|]. rewrite E1, E2. split.
  - rewrite map_id. apply firstn_skipn.
  - f_equal. assert (L : List.length (firstn c Z) = c) by (rewrite firstn_length; lia).
    rewrite <- L at 2. generalize (firstn c Z) as t. induction t as [|z t IHt]; [reflexivity|]. cbn. f_equal. exact IHt.
Qed.
