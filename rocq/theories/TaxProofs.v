(** Effects of changes in costs on equilibrium markups of logit demand. *)
From Coq Require Import Reals ZArith Lra Lia List Bool Arith.
From Verif Require Import Base EquilProofs.
Local Open Scope R_scope.

Section Firms.
Variables (J : nat) (firm : nat -> Z).
Notation sm := (same firm).

Definition total (E : nat -> R) (j : nat) : R := sumn J (fun k => sm k j * E k).

Lemma sm_sym j k : sm j k = sm k j.
Proof. unfold same. rewrite Z.eqb_sym. reflexivity. Qed.

Lemma sm_total E j k : sm j k = 1 -> total E j = total E k.
Proof.
  intros H. apply sumn_ext. intros l _. f_equal. unfold same in *.
  destruct (Z.eqb_spec (firm j) (firm k)) as [e|]; [rewrite e; reflexivity|lra].
Qed.

(** Averages of what is common to firms' products do not depend on weights within firms. *)
Lemma within_firms E v : (forall k, (k < J)%nat -> 0 < E k) ->
  (forall j k, (j < J)%nat -> (k < J)%nat -> firm j = firm k -> v j = v k) ->
  sumn J (fun j => E j / total E j * v j) = sumn J (fun j => v j / total (fun _ => 1) j).
Proof.
  intros HE V. set (c := total (fun _ => 1)).
  assert (P : forall F, (forall k, (k < J)%nat -> 0 < F k) -> forall j, (j < J)%nat -> 0 < total F j).
  { intros F HF j Hj. apply firm_total_pos; assumption. }
  assert (C : forall j, (j < J)%nat -> 0 < c j) by (apply P; intros; lra).
  rewrite (sumn_ext J _ (fun j => sumn J (fun k => sm k j * (E j / total E j * v j / c j)))).
  - rewrite sumn_swap. apply sumn_ext. intros k Hk.
    rewrite (sumn_ext J _ (fun j => v k / c k / total E k * (sm j k * E j))).
    + rewrite sumn_scal. fold (total E k). assert (Tk := P E HE k Hk). assert (Ck := C k Hk). field. split; lra.
    + intros j Hj. rewrite (sm_sym k j). destruct (same_cases firm j k) as [[-> _]|[Y S]]; [ring|]. rewrite Y.
      unfold c. rewrite (sm_total E j k Y), (sm_total (fun _ => 1) j k Y), (V j k Hj Hk S).
      assert (Tk := P E HE k Hk). assert (Ck := C k Hk). unfold c in Ck. field. split; lra.
  - intros j Hj. rewrite sumn_scal_r. assert (Cj := C j Hj).
    assert (E1 : sumn J (fun k => sm k j) = c j) by (apply sumn_ext; intros; ring).
    rewrite E1. assert (Tj := P E HE j Hj). field. split; lra.
Qed.
End Firms.

Section Costs.
Variables (J : nat) (firm : nat -> Z) (a : R) (E E' m n : nat -> R).
Hypothesis Ha : 0 < a.
Hypothesis HE : forall k, (k < J)%nat -> 0 < E k.
Hypothesis HE' : forall k, (k < J)%nat -> 0 < E' k.
Hypothesis F : fixed J firm E a m.
Hypothesis F' : fixed J firm E' a n.
Notation sm := (same firm).
Notation T := (total J firm E).
Notation T' := (total J firm E').
Notation W := (all_weights J E a m).
Notation W' := (all_weights J E' a n).
Notation cnt := (total J firm (fun _ => 1)).

Lemma common_total G b j : common_weight J firm G a b j = total J firm G j * exp (- (a * b)).
Proof. unfold common_weight, total. rewrite <- sumn_scal_r. apply sumn_ext. intros; ring. Qed.

Lemma margins_fall_if j : (j < J)%nat -> T' j * W <= T j * W' -> n j <= m j.
Proof using Ha HE HE' F F'.
  intros Hj H. destruct (Rle_lt_dec (n j) (m j)) as [L|L]; [assumption|]. exfalso.
  destruct (fixed_share J firm E a Ha HE m j F Hj) as [Pm [Em Gm]].
  destruct (fixed_share J firm E' a Ha HE' n j F' Hj) as [Pn [En Gn]].
  rewrite common_total in Em, En.
  assert (Wm := weights_ge J E a HE m). assert (Wn := weights_ge J E' a HE' n).
  assert (Tp : 0 < T j) by (apply firm_total_pos; assumption).
  assert (Tp' : 0 < T' j) by (apply firm_total_pos; assumption).
  assert (AL : a * m j < a * n j) by (apply Rmult_lt_compat_l; lra).
  assert (X : exp (- (a * n j)) < exp (- (a * m j))) by (apply exp_increasing; lra).
  assert (X0 := exp_pos (- (a * n j))).
  set (x := a * m j) in *. set (y := a * n j) in *. set (e := exp (- x)) in *. set (e' := exp (- y)) in *.
  set (w := W) in *. set (w' := W') in *. set (t := T j) in *. set (t' := T' j) in *.
  assert (K1 : t' * w * e' <= t * w' * e') by (apply Rmult_le_compat_r; lra).
  assert (K2 : t * w' * e' < t * w' * e) by (apply Rmult_lt_compat_l; [apply Rmult_lt_0_compat; lra|assumption]).
  assert (Q1 : t' * w * e' * (x * y) = w' * w * ((y - 1) * x)).
  { replace (t' * w * e' * (x * y)) with (t' * e' * y * (w * x)) by ring. rewrite En. ring. }
  assert (Q2 : t * w' * e * (x * y) = w' * w * ((x - 1) * y)).
  { replace (t * w' * e * (x * y)) with (t * e * x * (w' * y)) by ring. rewrite Em. ring. }
  assert (xy : 0 < x * y) by (apply Rmult_lt_0_compat; lra).
  assert (K3 : t' * w * e' * (x * y) < t * w' * e * (x * y)) by (apply Rmult_lt_compat_r; lra).
  rewrite Q1, Q2 in K3.
  assert (K4 : w' * w * ((x - 1) * y) < w' * w * ((y - 1) * x)).
  { apply Rmult_lt_compat_l; [apply Rmult_lt_0_compat; lra|lra]. }
  lra.
Qed.
End Costs.

Section Totals.
Variables (J : nat) (firm : nat -> Z) (a : R).
Hypothesis Ha : 0 < a.
Notation cnt := (total J firm (fun _ => 1)).

Lemma cnt_pos j : (j < J)%nat -> 0 < cnt j.
Proof. intros Hj. apply firm_total_pos; [intros; lra|assumption]. Qed.

(** The inside share from markups alone. *)
Lemma inside_from_margins E m : (forall k, (k < J)%nat -> 0 < E k) -> fixed J firm E a m ->
  1 - / all_weights J E a m = sumn J (fun j => (1 - / (a * m j)) / cnt j).
Proof.
  intros HE F. rewrite <- (shares_sum J E a HE m).
  rewrite <- (within_firms J firm E (fun j => 1 - / (a * m j)) HE).
  - apply sumn_ext. intros j Hj. assert (X := share_determined J firm E a Ha HE m j F Hj).
    assert (Tp : 0 < total J firm E j) by (apply firm_total_pos; assumption). fold (total J firm E j) in X.
    apply Rmult_eq_reg_r with (total J firm E j); [|lra]. rewrite X. field.
    destruct (fixed_share J firm E a Ha HE m j F Hj) as [P _]. repeat split; lra.
  - intros j k Hj Hk S. rewrite (fixed_common J firm E a m k F Hk j Hj S). reflexivity.
Qed.

Lemma markup_share_mono x y : 0 < x -> x <= y -> 1 - / (a * x) <= 1 - / (a * y).
Proof.
  intros Hx H. assert (/ (a * y) <= / (a * x)); [|lra]. apply Rinv_le_contravar.
  - apply Rmult_lt_0_compat; assumption.
  - apply Rmult_le_compat_l; lra.
Qed.

Lemma margins_weights E E' m n : (forall k, (k < J)%nat -> 0 < E k) -> (forall k, (k < J)%nat -> 0 < E' k) ->
  fixed J firm E a m -> fixed J firm E' a n -> (forall j, (j < J)%nat -> m j <= n j) ->
  all_weights J E a m <= all_weights J E' a n /\
  ((exists j, (j < J)%nat /\ m j < n j) -> all_weights J E a m < all_weights J E' a n).
Proof.
  intros HE HE' F F' H. assert (Q := inside_from_margins E m HE F). assert (Q' := inside_from_margins E' n HE' F').
  assert (Wm := weights_ge J E a HE m). assert (Wn := weights_ge J E' a HE' n).
  assert (K : forall j, (j < J)%nat -> (1 - / (a * m j)) / cnt j <= (1 - / (a * n j)) / cnt j).
  { intros j Hj. unfold Rdiv. apply Rmult_le_compat_r; [left; apply Rinv_0_lt_compat; apply cnt_pos; assumption|].
    apply markup_share_mono; [apply (fixed_share J firm E a Ha HE m j F Hj)|apply H; assumption]. }
  split.
  - assert (S := sumn_le J _ _ K). rewrite <- Q, <- Q' in S. apply Rnot_lt_le. intros L.
    assert (I := Rinv_lt_contravar _ _ (Rmult_lt_0_compat _ _ (Rlt_le_trans _ _ _ Rlt_0_1 Wn) (Rlt_le_trans _ _ _ Rlt_0_1 Wm)) L). lra.
  - intros [j [Hj L]].
    assert (S : sumn J (fun j => (1 - / (a * m j)) / cnt j) < sumn J (fun j => (1 - / (a * n j)) / cnt j)).
    { apply sumn_lt; [assumption|]. exists j. split; [assumption|]. unfold Rdiv.
      apply Rmult_lt_compat_r; [apply Rinv_0_lt_compat; apply cnt_pos; assumption|].
      destruct (fixed_share J firm E a Ha HE m j F Hj) as [P _].
      assert (/ (a * n j) < / (a * m j)); [|lra]. apply Rinv_lt_contravar.
      - apply Rmult_lt_0_compat; apply Rmult_lt_0_compat; lra.
      - apply Rmult_lt_compat_l; lra. }
    rewrite <- Q, <- Q' in S. apply Rnot_le_lt. intros G.
    assert (I := Rinv_le_contravar _ _ (Rlt_le_trans _ _ _ Rlt_0_1 Wn) G). lra.
Qed.
End Totals.

(** Costs rise by d. *)
Section Rise.
Variables (J : nat) (firm : nat -> Z) (a : R) (E d m n : nat -> R).
Hypothesis Ha : 0 < a.
Hypothesis HE : forall k, (k < J)%nat -> 0 < E k.
Hypothesis Hd : forall k, (k < J)%nat -> 0 <= d k.
Definition dearer (k : nat) : R := E k * exp (- (a * d k)).
Notation E' := dearer.
Hypothesis F : fixed J firm E a m.
Hypothesis F' : fixed J firm E' a n.
Notation T := (total J firm E).
Notation T' := (total J firm E').
Notation W := (all_weights J E a m).
Notation W' := (all_weights J E' a n).

Lemma dearer_pos k : (k < J)%nat -> 0 < E' k.
Proof. intros Hk. apply Rmult_lt_0_compat; [apply HE; assumption|apply exp_pos]. Qed.

Lemma dearer_le k : (k < J)%nat -> E' k <= E k.
Proof.
  intros Hk. unfold dearer. rewrite <- (Rmult_1_r (E k)) at 2. apply Rmult_le_compat_l; [left; apply HE; assumption|].
  rewrite <- exp_0. apply exp_le. assert (0 <= a * d k) by (apply Rmult_le_pos; [lra|apply Hd; assumption]). lra.
Qed.

Lemma total_le j : T' j <= T j.
Proof.
  apply sumn_le. intros k Hk. assert (X := dearer_le k Hk).
  destruct (same_cases firm k j) as [[-> _]|[-> _]]; lra.
Qed.

Lemma weights_fall : W' <= W.
Proof.
  destruct (Rle_lt_dec W' W) as [L|L]; [assumption|].
  apply (margins_weights J firm a Ha E' E n m dearer_pos HE F' F). intros j Hj.
  apply (margins_fall_if J firm a E E' m n Ha HE dearer_pos F F' j Hj).
  assert (Wm := weights_ge J E a HE m).
  assert (Tp' : 0 < T' j) by (apply firm_total_pos; [exact dearer_pos|assumption]).
  assert (X := total_le j). apply Rle_trans with (T j * W); [apply Rmult_le_compat_r; lra|apply Rmult_le_compat_l; lra].
Qed.

Lemma total_unaffected j : (forall k, (k < J)%nat -> firm k = firm j -> d k = 0) -> T' j = T j.
Proof.
  intros U. apply sumn_ext. intros k Hk. destruct (same_cases firm k j) as [[-> _]|[-> S]]; [ring|].
  unfold dearer. rewrite (U k Hk S), Rmult_0_r, Ropp_0, exp_0. ring.
Qed.

Lemma unaffected_rise j : (j < J)%nat -> (forall k, (k < J)%nat -> firm k = firm j -> d k = 0) -> m j <= n j.
Proof.
  intros Hj U. apply (margins_fall_if J firm a E' E n m Ha dearer_pos HE F' F j Hj).
  rewrite (total_unaffected j U). assert (Tp : 0 < T j) by (apply firm_total_pos; assumption).
  apply Rmult_le_compat_l; [lra|apply weights_fall].
Qed.

Lemma unaffected_share j : (j < J)%nat -> (forall k, (k < J)%nat -> firm k = firm j -> d k = 0) ->
  share_at J E a m j <= share_at J E' a n j.
Proof.
  intros Hj U. assert (S := share_determined J firm E a Ha HE m j F Hj).
  assert (S' := share_determined J firm E' a Ha dearer_pos n j F' Hj).
  fold (total J firm E j) in S. fold (total J firm E' j) in S'. rewrite (total_unaffected j U) in S'.
  assert (Tp : 0 < T j) by (apply firm_total_pos; assumption).
  apply Rmult_le_reg_r with (T j); [assumption|]. rewrite S, S'.
  assert (E' j = E j) as ->.
  { unfold dearer. rewrite (U j Hj eq_refl), Rmult_0_r, Ropp_0, exp_0. ring. }
  apply Rmult_le_compat_l; [left; apply HE; assumption|].
  apply (markup_share_mono a Ha); [apply (fixed_share J firm E a Ha HE m j F Hj)|apply unaffected_rise; assumption].
Qed.

(** The firm's share rises with its markup. *)
Lemma own_share G q j : (forall k, (k < J)%nat -> 0 < G k) -> fixed J firm G a q -> (j < J)%nat ->
  total J firm G j * exp (- (a * q j)) / all_weights J G a q = 1 - / (a * q j).
Proof using Ha.
  intros HG FG Hj. destruct (fixed_share J firm G a Ha HG q j FG Hj) as [P [Q G1]]. rewrite common_total in Q.
  assert (Wg := weights_ge J G a HG q). apply Rmult_eq_reg_r with (a * q j * all_weights J G a q).
  - replace (total J firm G j * exp (- (a * q j)) / all_weights J G a q * (a * q j * all_weights J G a q))
      with (total J firm G j * exp (- (a * q j)) * (a * q j)) by (field; lra).
    rewrite Q. field. split; lra.
  - apply Rgt_not_eq. apply Rmult_lt_0_compat; lra.
Qed.

(** Not all of a firm's prices fall. *)
Lemma prices_do_not_fall j : (j < J)%nat ->
  (forall k, (k < J)%nat -> firm k = firm j -> d k + n j <= m j) -> m j <= n j.
Proof.
  intros Hj H. assert (Q := own_share E m j HE F Hj). assert (Q' := own_share E' n j dearer_pos F' Hj).
  assert (Wm := weights_ge J E a HE m). assert (Wn := weights_ge J E' a dearer_pos n). assert (WF := weights_fall).
  assert (O : T j * exp (- (a * m j)) <= T' j * exp (- (a * n j))).
  { unfold total. rewrite <- !sumn_scal_r. apply sumn_le. intros k Hk.
    destruct (same_cases firm k j) as [[-> _]|[-> S]]; [lra|]. unfold dearer. rewrite !Rmult_1_l, Rmult_assoc, <- exp_plus.
    apply Rmult_le_compat_l; [left; apply HE; assumption|]. apply exp_le. specialize (H k Hk S).
    assert (a * (d k + n j) <= a * m j) by (apply Rmult_le_compat_l; lra). lra. }
  assert (P0 : 0 < T j * exp (- (a * m j))).
  { apply Rmult_lt_0_compat; [apply firm_total_pos; assumption|apply exp_pos]. }
  assert (R : 1 - / (a * m j) <= 1 - / (a * n j)).
  { rewrite <- Q, <- Q'. unfold Rdiv. apply Rmult_le_compat; try lra.
    - left. apply Rinv_0_lt_compat. lra.
    - apply Rinv_le_contravar; lra. }
  apply Rnot_lt_le. intros L. destruct (fixed_share J firm E' a Ha dearer_pos n j F' Hj) as [Pn _].
  assert (I : / (a * m j) < / (a * n j)); [|lra]. apply Rinv_lt_contravar.
  - apply Rmult_lt_0_compat; apply Rmult_lt_0_compat; lra.
  - apply Rmult_lt_compat_l; lra.
Qed.

Lemma affected_falls j : (j < J)%nat -> (forall k, (k < J)%nat -> firm k <> firm j -> d k = 0) -> n j <= m j.
Proof.
  intros Hj H. apply Rnot_lt_le. intros L.
  assert (A : forall k, (k < J)%nat -> m k <= n k).
  { intros k Hk. destruct (Z.eq_dec (firm k) (firm j)) as [S|S].
    - rewrite (fixed_common J firm E a m j F Hj k Hk S), (fixed_common J firm E' a n j F' Hj k Hk S). lra.
    - apply unaffected_rise; [assumption|]. intros l Hl Sl. apply H; [assumption|congruence]. }
  destruct (margins_weights J firm a Ha E E' m n HE dearer_pos F F' A) as [_ X].
  assert (Y := X (ex_intro _ j (conj Hj L))). assert (Z := weights_fall). lra.
Qed.

Lemma largest_rises j k : (j < J)%nat -> (k < J)%nat -> firm k = firm j ->
  (forall l, (l < J)%nat -> firm l = firm j -> d l <= d k) ->
  m j <= d k + n j /\ (0 < d k -> m j < d k + n j).
Proof.
  intros Hj Hk S H.
  assert (X : d k + n j <= m j -> m j <= n j).
  { intros L. apply prices_do_not_fall; [assumption|]. intros l Hl Sl. specialize (H l Hl Sl). lra. }
  split.
  - apply Rnot_lt_le. intros L. assert (D := Hd k Hk). specialize (X (Rlt_le _ _ L)). lra.
  - intros D. apply Rnot_le_lt. intros L. specialize (X L). lra.
Qed.

(** The same rise for all. *)
Lemma common_rise t : (forall k, (k < J)%nat -> d k = t) -> forall j, (j < J)%nat ->
  n j <= m j /\ m j <= t + n j /\ (0 < t -> m j < t + n j).
Proof.
  intros Ht. assert (TT : forall j, T' j = exp (- (a * t)) * T j).
  { intros j. unfold total. rewrite <- sumn_scal. apply sumn_ext. intros k Hk. unfold dearer. rewrite (Ht k Hk). ring. }
  assert (Wm := weights_ge J E a HE m). assert (Wn := weights_ge J E' a dearer_pos n).
  assert (e0 := exp_pos (- (a * t))).
  intros j Hj. assert (t0 : 0 <= t) by (rewrite <- (Ht j Hj); apply Hd; assumption).
  assert (e1 : exp (- (a * t)) <= 1).
  { rewrite <- exp_0. apply exp_le. assert (0 <= a * t) by (apply Rmult_le_pos; lra). lra. }
  assert (K : exp (- (a * t)) * W <= W').
  { apply Rnot_lt_le. intros L. assert (W <= W').
    { apply (margins_weights J firm a Ha E E' m n HE dearer_pos F F'). intros k Hk.
      apply (margins_fall_if J firm a E' E n m Ha dearer_pos HE F' F k Hk). rewrite TT.
      assert (Tp : 0 < T k) by (apply firm_total_pos; assumption).
      replace (exp (- (a * t)) * T k * W) with (T k * (exp (- (a * t)) * W)) by ring. apply Rmult_le_compat_l; lra. }
    assert (exp (- (a * t)) * W <= 1 * W) by (apply Rmult_le_compat_r; lra). lra. }
  split.
  - apply (margins_fall_if J firm a E E' m n Ha HE dearer_pos F F' j Hj). rewrite TT.
    assert (Tp : 0 < T j) by (apply firm_total_pos; assumption).
    replace (exp (- (a * t)) * T j * W) with (T j * (exp (- (a * t)) * W)) by ring. apply Rmult_le_compat_l; lra.
  - rewrite <- (Ht j Hj). apply (largest_rises j j Hj Hj eq_refl). intros l Hl _. rewrite (Ht l Hl), (Ht j Hj). lra.
Qed.
End Rise.
