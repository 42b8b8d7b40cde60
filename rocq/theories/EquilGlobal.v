(** From every starting values, steps converge to the one fixed point. *)
From Coq Require Import Reals ZArith Lra Lia List Bool Arith Classical.
From Verif Require Import Base EquilProofs EquilLimits.
Local Open Scope R_scope.

Lemma INR_unbounded (r : R) : exists k, r < INR k.
Proof.
  exists (Z.to_nat (Z.max 0 (up r))). rewrite INR_IZR_INZ, Z2Nat.id by lia.
  assert (A := archimed r). assert (IZR (up r) <= IZR (Z.max 0 (up r))) by (apply IZR_le; lia). lra.
Qed.

Section Unit.
Variables (J : nat) (firm : nat -> Z) (E : nat -> R).
Hypothesis HE : forall k, (k < J)%nat -> 0 < E k.
Let P1 : 0 < 1 := Rlt_0_1.

Notation next := (next J firm E 1).
Notation steps := (steps J firm E 1).
Notation fixed := (fixed J firm E 1).
Notation own := (own_weight J firm E 1).
Notation rest := (rest_weight J firm E 1).
Notation all := (all_weights J E 1).
Notation common := (common_weight J firm E 1).

Definition alike (m : nat -> R) : Prop :=
  forall j k, (j < J)%nat -> (k < J)%nat -> firm k = firm j -> m k = m j.

Lemma next_alike m : alike (next m).
Proof. intros j k Hj Hk F. apply next_same. assumption. Qed.

Lemma next_change m j : alike m -> (j < J)%nat ->
  (m j - next m j) * (own m j + rest m j) = (m j - 1) * rest m j - own m j.
Proof.
  intros A Hj. assert (M := margin_common J firm E 1 HE m j (fun k Hk F => A j k Hj Hk F)).
  rewrite <- (weights_split J firm E 1 m j). unfold EquilProofs.next. rewrite Rinv_1.
  replace ((m j - (1 + firm_margin J firm E 1 m j)) * all m)
    with ((m j - 1) * all m - firm_margin J firm E 1 m j * all m) by ring.
  rewrite M, (weights_split J firm E 1 m j). ring.
Qed.

Lemma own_rest_pos m j : (j < J)%nat -> 0 < own m j /\ 1 <= rest m j.
Proof. intros Hj. split; [apply (own_pos J firm E 1 HE m j Hj)|apply (rest_ge J firm E 1 HE m j)]. Qed.

Lemma own_is_common m j : alike m -> (j < J)%nat -> own m j = common (m j) j.
Proof. intros A Hj. apply own_common. intros k Hk F. apply A; assumption. Qed.

Lemma next_at_least m j : alike m -> (j < J)%nat -> 0 <= m j -> 1 <= next m j.
Proof.
  intros A Hj H. assert (C := next_change m j A Hj). destruct (own_rest_pos m j Hj) as [Po Pr].
  apply Rmult_le_reg_r with (own m j + rest m j); [lra|].
  assert (0 <= m j * own m j) by (apply Rmult_le_pos; lra). nra.
Qed.

Lemma next_rises m j : alike m -> (j < J)%nat -> m j < 0 -> m j + 1 <= next m j.
Proof.
  intros A Hj H. assert (C := next_change m j A Hj). destruct (own_rest_pos m j Hj) as [Po Pr].
  apply Rmult_le_reg_r with (own m j + rest m j); [lra|].
  assert (0 <= - m j * rest m j) by (apply Rmult_le_pos; lra). nra.
Qed.

(** What a step sets is at most the best markup against others' previous ones. *)
Lemma next_best w j : (j < J)%nat -> (next w j - 1) * rest w j <= common (next w j) j.
Proof.
  intros Hj. assert (B := margin_bound J firm E 1 P1 HE w j).
  replace (next w j - 1) with (firm_margin J firm E 1 w j); [lra|]. unfold EquilProofs.next. rewrite Rinv_1. ring.
Qed.

(** How far a markup falls. *)
Lemma fall_step w j z r : (j < J)%nat -> let m := next w in
  1 <= m j -> m j <= 1 + z -> 1 <= r -> rest m j <= r * rest w j ->
  (m j - next m j) * (z + r) <= z * (r - 1).
Proof.
  intros Hj m H1 Hz Hr HR. assert (A : alike m) by apply next_alike.
  assert (C := next_change m j A Hj). destruct (own_rest_pos m j Hj) as [Po Pr].
  destruct (own_rest_pos w j Hj) as [_ Pw].
  assert (B := next_best w j Hj). fold m in B. rewrite <- (own_is_common m j A Hj) in B.
  set (f := m j - next m j) in *. set (y := m j - 1) in *. set (A0 := own m j) in *.
  set (R0 := rest w j) in *. set (R1 := rest m j) in *.
  assert (Y : 0 <= y <= z) by (unfold y; lra).
  destruct (Rle_lt_dec f 0) as [L|L].
  - assert (f * (z + r) <= 0) by (assert (0 <= - f * (z + r)) by (apply Rmult_le_pos; lra); lra).
    assert (0 <= z * (r - 1)) by (apply Rmult_le_pos; lra). lra.
  - (* f (y R0 + R1) <= y (R1 - R0) *)
    assert (K : f * (y * R0 + R1) <= y * (R1 - R0)).
    { assert (f * (y * R0) <= f * A0) by (apply Rmult_le_compat_l; lra).
      replace (f * (y * R0 + R1)) with (f * (y * R0) + f * R1) by ring. lra. }
    (* divide by R0 *)
    set (q := R1 / R0). assert (EQ : R1 = q * R0) by (unfold q; field; lra).
    assert (Q : q <= r).
    { apply Rmult_le_reg_r with R0; [lra|]. rewrite <- EQ. assumption. }
    rewrite EQ in K.
    assert (K2 : f * (y + q) <= y * (q - 1)).
    { apply Rmult_le_reg_r with R0; [lra|].
      replace (f * (y + q) * R0) with (f * (y * R0 + q * R0)) by ring.
      replace (y * (q - 1) * R0) with (y * (q * R0 - R0)) by ring. exact K. }
    assert (Qp : 0 < q) by (unfold q; apply Rdiv_lt_0_compat; lra).
    assert (Yq : 0 < y + q) by lra.
    apply Rmult_le_reg_r with (y + q); [assumption|].
    replace (f * (z + r) * (y + q)) with (f * (y + q) * (z + r)) by ring.
    apply Rle_trans with (y * (q - 1) * (z + r)); [apply Rmult_le_compat_r; lra|].
    assert (X : z * (r - 1) * (y + q) - y * (q - 1) * (z + r)
                = z * y * (r - q) + y * (r - q) + (z - y) * (q * (r - 1))) by ring.
    assert (0 <= z * y * (r - q)) by (apply Rmult_le_pos; [apply Rmult_le_pos|]; lra).
    assert (0 <= y * (r - q)) by (apply Rmult_le_pos; lra).
    assert (0 <= (z - y) * (q * (r - 1))) by (apply Rmult_le_pos; [lra|apply Rmult_le_pos; lra]). lra.
Qed.

Lemma fall_is_bounded w j s r : (j < J)%nat -> let m := next w in 0 <= s < 1 ->
  1 <= m j -> m j * (1 - s) <= 1 -> 1 <= r -> rest m j <= r * rest w j ->
  m j - next m j <= fall_bound s r.
Proof.
  intros Hj m Hs H1 Hm Hr HR.
  assert (K := fall_step w j (s / (1 - s)) r Hj). cbv zeta in K. fold m in K.
  assert (Z : m j <= 1 + s / (1 - s)).
  { replace (1 + s / (1 - s)) with (/ (1 - s)) by (field; lra).
    apply Rmult_le_reg_r with (1 - s); [lra|]. rewrite Rinv_l by lra. assumption. }
  specialize (K H1 Z Hr HR). unfold fall_bound. assert (D := fall_bound_den s r ltac:(lra) Hr).
  apply Rmult_le_reg_r with (s + (1 - s) * r); [lra|].
  replace (s * (r - 1) / (s + (1 - s) * r) * (s + (1 - s) * r)) with (s * (r - 1)) by (field; lra).
  apply (Rmult_le_compat_r (1 - s)) in K; [|lra].
  replace ((m j - next m j) * (s / (1 - s) + r) * (1 - s)) with ((m j - next m j) * (s + (1 - s) * r)) in K
    by (field; lra).
  replace (s / (1 - s) * (r - 1) * (1 - s)) with (s * (r - 1)) in K by (field; lra). assumption.
Qed.

(** Others' weights rise by no more than the exponential of how far others' markups fall. *)
Lemma rest_rises m n j F : (j < J)%nat -> 0 <= F ->
  (forall k, (k < J)%nat -> firm k <> firm j -> m k - n k <= F) -> rest n j <= exp F * rest m j.
Proof.
  intros Hj HF H. unfold rest_weight. rewrite Rmult_plus_distr_l, Rmult_1_r.
  assert (X := exp_ineq1_le F). apply Rplus_le_compat; [lra|]. rewrite <- sumn_scal. apply sumn_le.
  intros k Hk. destruct (same_cases firm k j) as [[-> N]|[-> _]]; [|lra].
  unfold weight_of. assert (P := HE k Hk).
  replace ((1 - 0) * (E k * exp (- (1 * n k)))) with (E k * exp (- n k)) by (rewrite Rmult_1_l; ring).
  replace (exp F * ((1 - 0) * (E k * exp (- (1 * m k))))) with (E k * (exp F * exp (- m k)))
    by (rewrite Rmult_1_l; ring).
  rewrite <- exp_plus. apply Rmult_le_compat_l; [lra|]. apply exp_le. specialize (H k Hk N). lra.
Qed.

(* ---------- fixed points ---------- *)

Lemma fixed_equation m j : fixed m -> (j < J)%nat -> own m j = (m j - 1) * rest m j.
Proof.
  intros F Hj. assert (A : alike m) by (intros k l Hk Hl Q; apply (fixed_common J firm E 1 m k F Hk l Hl Q)).
  assert (C := next_change m j A Hj). rewrite (F j Hj) in C. lra.
Qed.

Definition best_share (m : nat -> R) (j : nat) : R := 1 - / m j.

Lemma best_share_range m j : fixed m -> (j < J)%nat -> 0 < best_share m j < 1 /\ 1 < m j.
Proof.
  intros F Hj. destruct (fixed_share J firm E 1 P1 HE m j F Hj) as [P [_ G]]. rewrite Rmult_1_l in G.
  unfold best_share. assert (0 < / m j) by (apply Rinv_0_lt_compat; lra).
  assert (/ m j < 1) by (rewrite <- Rinv_1; apply Rinv_lt_contravar; lra). lra.
Qed.

Lemma best_share_is m j : fixed m -> (j < J)%nat -> best_share m j = own m j / all m.
Proof.
  intros F Hj. destruct (best_share_range m j F Hj) as [_ G]. assert (Q := fixed_equation m j F Hj).
  destruct (own_rest_pos m j Hj) as [Po Pr]. rewrite (weights_split J firm E 1 m j), Q. unfold best_share.
  field. split; [lra|]. assert (0 < (m j - 1) * rest m j) by (apply Rmult_lt_0_compat; lra). lra.
Qed.

Lemma best_shares_add m j k : fixed m -> (j < J)%nat -> (k < J)%nat -> firm j <> firm k ->
  best_share m j + best_share m k < 1.
Proof.
  intros F Hj Hk N. rewrite !best_share_is by assumption.
  assert (W := weights_ge J E 1 HE m).
  assert (S : own m j + own m k <= sumn J (weight_of E 1 m)).
  { unfold own_weight. rewrite <- sumn_plus. apply sumn_le. intros l Hl.
    assert (P := weight_pos J E 1 HE m l Hl).
    destruct (same_cases firm l j) as [[-> _]|[-> A]]; destruct (same_cases firm l k) as [[-> _]|[-> B]]; try lra.
    exfalso. congruence. }
  unfold Rdiv. rewrite <- Rmult_plus_distr_r. apply Rmult_lt_reg_r with (all m); [lra|].
  rewrite Rmult_assoc, Rinv_l, Rmult_1_r, Rmult_1_l by lra. unfold all_weights. lra.
Qed.

(** Markups at which no firm wants to charge more are at least those of the fixed point. *)
Lemma above_fixed l m : fixed m -> alike l -> (forall j, (j < J)%nat -> 1 <= l j /\ own l j <= (l j - 1) * rest l j) ->
  forall j, (j < J)%nat -> m j <= l j.
Proof.
  intros F A H.
  assert (G : forall n j, (j < J)%nat -> steps n (fun _ => 0) j <= l j).
  { induction n as [|n IH]; intros j Hj; [cbn; destruct (H j Hj); lra|]. cbn [EquilProofs.steps].
    set (u := steps n (fun _ => 0)) in *. destruct (H j Hj) as [L1 L2].
    destruct (Rle_lt_dec (next u j) (l j)) as [Q|Q]; [assumption|]. exfalso.
    assert (B := next_best u j Hj).
    assert (C : common (next u j) j <= common (l j) j) by (apply (common_anti J firm E 1 P1 HE); [assumption|lra]).
    rewrite <- (own_is_common l j A Hj) in C.
    assert (R : rest l j <= rest u j).
    { unfold rest_weight. apply Rplus_le_compat_l. apply sumn_le. intros k Hk.
      assert (W := weight_anti J E 1 P1 HE u l k Hk (IH k Hk)). destruct (same_cases firm k j) as [[-> _]|[-> _]]; lra. }
    destruct (own_rest_pos l j Hj) as [_ Pr].
    assert ((next u j - 1) * rest l j <= (next u j - 1) * rest u j) by (apply Rmult_le_compat_l; lra).
    assert ((l j - 1) * rest l j < (next u j - 1) * rest l j) by (apply Rmult_lt_compat_r; lra). lra. }
  intros j Hj.
  destruct (steps_converge J firm E 1 P1 HE (fun _ => 0) m) with (j := j) as [C _].
  - intros; lra.
  - intros k Hk. left. apply (next_pos J firm E 1 P1 HE). intros; lra.
  - assumption.
  - assumption.
  - apply Rnot_lt_le. intros L. destruct (C (m j - l j) ltac:(lra)) as [N HN]. specialize (HN N ltac:(lia)).
    unfold R_dist in HN. specialize (G N j Hj). apply Rabs_def2 in HN. lra.
Qed.

(* ---------- a run ---------- *)

Variable start : nat -> R.
Notation x n := (steps n start).

Lemma run_alike n : alike (x (S n)).
Proof. apply next_alike. Qed.

Lemma run_at_least : eventually (fun n => forall j, (j < J)%nat -> 1 <= x n j).
Proof.
  apply eventually_all. intros j Hj.
  assert (G : forall k, Rmin 1 (x 1 j + INR k) <= x (S k) j).
  { induction k as [|k IH]; [cbn [INR]; rewrite Rplus_0_r; apply Rmin_r|].
    change (x (S (S k))) with (next (x (S k))).
    destruct (Rle_lt_dec 0 (x (S k) j)) as [L|L].
    - eapply Rle_trans; [apply Rmin_l|]. apply next_at_least; [apply run_alike|assumption|assumption].
    - eapply Rle_trans; [|apply next_rises; [apply run_alike|assumption|assumption]]. rewrite S_INR.
      revert IH. unfold Rmin. destruct (Rle_dec 1 (x 1 j + INR k)), (Rle_dec 1 (x 1 j + (INR k + 1))); intros; lra. }
  destruct (INR_unbounded (1 - x 1 j)) as [K HK]. exists (S K). intros n Hn. destruct n as [|n]; [lia|].
  eapply Rle_trans; [|apply G]. apply Rmin_glb; [lra|]. assert (INR K <= INR n) by (apply le_INR; lia). lra.
Qed.

Lemma run_bounded : eventually (fun n => forall j, (j < J)%nat -> 1 <= x n j <= 1 + sumn J E).
Proof.
  destruct run_at_least as [N HN]. exists (S N). intros n Hn j Hj. destruct n as [|n]; [lia|].
  split; [apply HN; [lia|assumption]|]. change (x (S n) j) with (next (x n) j).
  eapply Rle_trans; [apply (next_bounded J firm E 1 P1 HE)|rewrite Rinv_1; lra].
  intros k Hk. assert (1 <= x n k) by (apply HN; [lia|assumption]). lra.
Qed.

Section Limit.
Variable m : nat -> R.
Hypothesis Hm : fixed m.

(** Upper limits. *)
Lemma run_upper : exists L, (forall j, (j < J)%nat -> limsup (fun n => x n j) (L j) /\ 1 <= L j) .
Proof.
  assert (C : forall j, exists l, (j < J)%nat -> limsup (fun n => x n j) l /\ 1 <= l).
  { intros j. destruct (lt_dec j J) as [Hj|Hj]; [|exists 0; intros; contradiction].
    destruct (limsup_exists (fun n => x n j) 1 (1 + sumn J E)) as [l [H1 H2]].
    - eapply eventually_imp; [|exact run_bounded]. intros n H. apply H; assumption.
    - exists l. intros _. split; [assumption|lra]. }
  assert (G : forall K, exists L, forall j, (j < K)%nat -> (j < J)%nat -> limsup (fun n => x n j) (L j) /\ 1 <= L j).
  { induction K as [|K [L HL]]; [exists (fun _ => 0); intros; lia|]. destruct (C K) as [l Hl].
    exists (fun j => if Nat.eqb j K then l else L j). intros j Hj HJ. destruct (Nat.eqb_spec j K) as [->|]; [auto|].
    apply HL; [lia|assumption]. }
  destruct (G J) as [L HL]. exists L. intros j Hj. apply HL; assumption.
Qed.

Lemma rest_shift L e j : (j < J)%nat -> rest (fun k => L k + e) j = 1 + exp (- e) * (rest L j - 1).
Proof.
  intros Hj. unfold rest_weight. replace (1 + sumn J (fun k => (1 - same firm k j) * weight_of E 1 L k) - 1)
    with (sumn J (fun k => (1 - same firm k j) * weight_of E 1 L k)) by ring.
  rewrite <- sumn_scal. f_equal. apply sumn_ext. intros k Hk. unfold weight_of.
  replace (exp (- (1 * (L k + e)))) with (exp (- e) * exp (- (1 * L k))) by (rewrite <- exp_plus; f_equal; ring). ring.
Qed.

Lemma common_shift M e j : common (M + e) j = exp (- e) * common M j.
Proof.
  unfold common_weight. rewrite <- sumn_scal. apply sumn_ext. intros k Hk.
  replace (exp (- (1 * (M + e)))) with (exp (- e) * exp (- (1 * M))) by (rewrite <- exp_plus; f_equal; ring). ring.
Qed.

Lemma rest_anti u v j : (forall k, (k < J)%nat -> u k <= v k) -> rest v j <= rest u j.
Proof.
  intros H. unfold rest_weight. apply Rplus_le_compat_l. apply sumn_le. intros k Hk.
  assert (W := weight_anti J E 1 P1 HE u v k Hk (H k Hk)). destruct (same_cases firm k j) as [[-> _]|[-> _]]; lra.
Qed.

Lemma run_upper_bound L : (forall j, (j < J)%nat -> limsup (fun n => x n j) (L j) /\ 1 <= L j) ->
  forall j, (j < J)%nat -> L j <= m j.
Proof.
  intros HL.
  assert (A : alike L).
  { intros j k Hj Hk F. apply (limsup_unique (fun n => x n k) (fun n => x n j)); [|apply HL; assumption|apply HL; assumption].
    exists 1%nat. intros n Hn. destruct n as [|n]; [lia|]. apply run_alike; assumption. }
  assert (Q : forall j, (j < J)%nat -> (L j - 1) * rest L j <= own L j).
  { intros j Hj. rewrite (own_is_common L j A Hj).
    set (f := fun e => exp e * common (L j) j - (L j - 1 - e) * (1 + exp (- e) * (rest L j - 1))).
    assert (X : 0 <= f 0).
    { apply right_limit.
      - unfold f. reg.
      - intros e He. unfold f.
        destruct run_at_least as [N1 HN1].
        destruct (eventually_all J (fun k n => x n k <= L k + e)) as [N2 HN2].
        { intros k Hk. apply (proj1 (proj1 (HL k Hk)) e He). }
        destruct (proj2 (proj1 (HL j Hj)) e He (S (Nat.max N1 N2))) as [n [Hn Fn]].
        destruct n as [|n]; [lia|].
        assert (B := next_best (x n) j Hj). change (next (x n)) with (x (S n)) in B.
        assert (O1 : 1 <= x (S n) j) by (apply HN1; [lia|assumption]).
        assert (R1 : rest (fun k => L k + e) j <= rest (x n) j).
        { apply rest_anti. intros k Hk. apply HN2; [lia|assumption]. }
        assert (C1 : common (x (S n) j) j <= common (L j + - e) j).
        { apply (common_anti J firm E 1 P1 HE); [assumption|]. lra. }
        rewrite common_shift, Ropp_involutive in C1. rewrite <- rest_shift by assumption.
        destruct (own_rest_pos (fun k => L k + e) j Hj) as [_ Pr].
        set (R0 := rest (fun k => L k + e) j) in *.
        assert ((x (S n) j - 1) * R0 <= (x (S n) j - 1) * rest (x n) j) by (apply Rmult_le_compat_l; lra).
        assert ((L j - 1 - e) * R0 <= (x (S n) j - 1) * R0) by (apply Rmult_le_compat_r; lra). lra. }
    unfold f in X. rewrite Ropp_0, exp_0 in X. lra. }
  intros j Hj. apply (steps_converge J firm E 1 P1 HE L m); try assumption.
  - intros k Hk. destruct (HL k Hk). lra.
  - intros k Hk. assert (C := next_change L k A Hk). specialize (Q k Hk). destruct (own_rest_pos L k Hk) as [Po Pr].
    apply Rnot_lt_le. intros Lt. assert (0 < (L k - next L k) * (own L k + rest L k)); [|lra].
    apply Rmult_lt_0_compat; lra.
Qed.

Lemma run_below e : 0 < e -> eventually (fun n => forall j, (j < J)%nat -> x n j <= m j + e).
Proof.
  intros He. destruct run_upper as [L HL]. assert (B := run_upper_bound L HL).
  apply eventually_all. intros j Hj. destruct (proj1 (proj1 (HL j Hj)) e He) as [N HN].
  exists N. intros n Hn. specialize (HN n Hn). specialize (B j Hj). lra.
Qed.

(** Falls of markups. *)
Definition fall (n j : nat) : R := Rmax 0 (x n j - x (S n) j).

Lemma fall_nonneg n j : 0 <= fall n j.
Proof. apply Rmax_l. Qed.

Lemma fall_ge n j : x n j - x (S n) j <= fall n j.
Proof. apply Rmax_r. Qed.

Lemma falls_upper : exists F, (forall j, (j < J)%nat -> limsup (fun n => fall n j) (F j) /\ 0 <= F j).
Proof.
  assert (C : forall j, exists l, (j < J)%nat -> limsup (fun n => fall n j) l /\ 0 <= l).
  { intros j. destruct (lt_dec j J) as [Hj|Hj]; [|exists 0; intros; contradiction].
    destruct (limsup_exists (fun n => fall n j) 0 (1 + sumn J E)) as [l [H1 H2]].
    - destruct run_bounded as [N HN]. exists N. intros n Hn. split; [apply fall_nonneg|].
      assert (B := HN n Hn j Hj). assert (B' := HN (S n) ltac:(lia) j Hj). apply Rmax_lub; lra.
    - exists l. intros _. split; [assumption|lra]. }
  assert (G : forall K, exists L, forall j, (j < K)%nat -> (j < J)%nat -> limsup (fun n => fall n j) (L j) /\ 0 <= L j).
  { induction K as [|K [L HL]]; [exists (fun _ => 0); intros; lia|]. destruct (C K) as [l Hl].
    exists (fun j => if Nat.eqb j K then l else L j). intros j Hj HJ. destruct (Nat.eqb_spec j K) as [->|]; [auto|].
    apply HL; [lia|assumption]. }
  destruct (G J) as [L HL]. exists L. intros j Hj. apply HL; assumption.
Qed.

(** A bound on falls of other firms' markups bounds those of this firm. *)
Lemma falls_step F j D : (forall j, (j < J)%nat -> limsup (fun n => fall n j) (F j) /\ 0 <= F j) ->
  (j < J)%nat -> 0 <= D -> (forall k, (k < J)%nat -> firm k <> firm j -> F k <= D) ->
  F j <= fall_bound (best_share m j) (exp D).
Proof.
  intros HF Hj HD H. destruct (best_share_range m j Hm Hj) as [[S0 S1] G].
  set (f := fun e => fall_bound (1 - / (m j + e)) (exp (D + e)) + e).
  assert (X : F j <= f 0).
  { apply right_limit.
    - assert (Y : 1 - / (m j + 0) = best_share m j) by (rewrite Rplus_0_r; reflexivity).
      assert (Q := fall_bound_den (best_share m j) (exp (D + 0))).
      assert (Q2 := exp_ineq1_le (D + 0)).
      unfold f, fall_bound. apply continuity_pt_plus; [|apply derivable_continuous, derivable_id].
      assert (CI : continuity_pt (fun e => 1 - / (m j + e)) 0).
      { apply (continuity_pt_minus (fun _ => 1)); [apply continuity_pt_const; intros a b; reflexivity|].
        apply (continuity_pt_inv (fun e => m j + e)); [reg|lra]. }
      assert (CE : continuity_pt (fun e => exp (D + e)) 0) by reg.
      apply (continuity_pt_div (fun e => (1 - / (m j + e)) * (exp (D + e) - 1))
               (fun e => (1 - / (m j + e)) + (1 - (1 - / (m j + e))) * exp (D + e))).
      + apply (continuity_pt_mult (fun e => 1 - / (m j + e))); [assumption|].
        apply (continuity_pt_minus (fun e => exp (D + e))); [assumption|apply continuity_pt_const; intros a b; reflexivity].
      + apply (continuity_pt_plus (fun e => 1 - / (m j + e))); [assumption|].
        apply (continuity_pt_mult (fun e => 1 - (1 - / (m j + e)))); [|assumption].
        apply (continuity_pt_minus (fun _ => 1)); [apply continuity_pt_const; intros a b; reflexivity|assumption].
      + rewrite Y. specialize (Q ltac:(lra) ltac:(lra)). lra.
    - intros e He. unfold f.
      destruct (run_below e He) as [N1 H1]. destruct run_at_least as [N2 H2].
      destruct (eventually_all J (fun k n => fall n k <= F k + e)) as [N3 H3].
      { intros k Hk. apply (proj1 (proj1 (HF k Hk)) e He). }
      destruct (proj2 (proj1 (HF j Hj)) e He (S (Nat.max N1 (Nat.max N2 N3)))) as [n [Hn Fn]].
      destruct n as [|n]; [lia|].
      assert (B : x (S n) j - x (S (S n)) j <= fall_bound (1 - / (m j + e)) (exp (D + e))).
      { assert (I : 0 < / (m j + e) < 1).
        { split; [apply Rinv_0_lt_compat; lra|]. rewrite <- Rinv_1. apply Rinv_lt_contravar; lra. }
        apply (fall_is_bounded (x n) j); [assumption|lra| | | |].
        - change (1 <= x (S n) j); apply H2; [lia|assumption].
        - replace (1 - (1 - / (m j + e))) with (/ (m j + e)) by ring.
          assert (U : x (S n) j <= m j + e) by (apply H1; [lia|assumption]).
          change (next (x n) j) with (x (S n) j).
          apply Rmult_le_reg_r with (m j + e); [lra|]. rewrite Rmult_assoc, Rinv_l by lra. lra.
        - assert (Y := exp_ineq1_le (D + e)). lra.
        - apply rest_rises; [assumption|lra|]. intros k Hk N.
          assert (A1 := fall_ge n k). assert (A2 := H3 n ltac:(lia) k Hk). assert (A3 := H k Hk N).
          change (next (x n) k) with (x (S n) k). lra. }
      assert (Bp : 0 <= fall_bound (1 - / (m j + e)) (exp (D + e))).
      { assert (I : 0 < / (m j + e) < 1).
        { split; [apply Rinv_0_lt_compat; lra|]. rewrite <- Rinv_1. apply Rinv_lt_contravar; lra. }
        assert (Y := exp_ineq1_le (D + e)).
        assert (Z := fall_bound_den (1 - / (m j + e)) (exp (D + e)) ltac:(lra) ltac:(lra)).
        unfold fall_bound. apply Rmult_le_pos; [apply Rmult_le_pos; lra|]. left. apply Rinv_0_lt_compat. lra. }
      assert (fall (S n) j <= fall_bound (1 - / (m j + e)) (exp (D + e))) by (apply Rmax_lub; assumption). lra. }
  unfold f in X. rewrite !Rplus_0_r in X. exact X.
Qed.

Lemma largest (F : nat -> R) K : (0 < K)%nat -> exists p, (p < K)%nat /\ forall k, (k < K)%nat -> F k <= F p.
Proof.
  induction K as [|K IH]; intros H; [lia|]. destruct K as [|K].
  - exists O. split; [lia|]. intros k Hk. replace k with O by lia. lra.
  - destruct IH as [p [Hp G]]; [lia|]. destruct (Rle_lt_dec (F (S K)) (F p)) as [L|L].
    + exists p. split; [lia|]. intros k Hk. destruct (Nat.eq_dec k (S K)) as [->|]; [assumption|apply G; lia].
    + exists (S K). split; [lia|]. intros k Hk. destruct (Nat.eq_dec k (S K)) as [->|]; [lra|].
      specialize (G k ltac:(lia)). lra.
Qed.

(** Falls vanish. *)
Lemma falls_vanish e : 0 < e -> eventually (fun n => forall j, (j < J)%nat -> x n j - x (S n) j <= e).
Proof.
  intros He. destruct falls_upper as [F HF].
  assert (Z : forall j, (j < J)%nat -> F j <= 0).
  { intros j0 Hj0. destruct (largest F J ltac:(lia)) as [p [Hp G]].
    assert (F p <= 0); [|specialize (G j0 Hj0); lra].
    apply Rnot_lt_le. intros L.
    destruct (best_share_range m p Hm Hp) as [[S0 S1] _].
    destruct (Rle_lt_dec (best_share m p) (/ 2)) as [Q|Q].
    - assert (X := falls_step F p (F p) HF Hp (Rlt_le _ _ L) (fun k Hk _ => G k Hk)).
      assert (Y := small_share (best_share m p) (F p) ltac:(lra) L). lra.
    - set (s := best_share m p) in *. set (d := fall_bound (1 - s) (exp (F p))).
      assert (V : 1 < exp (F p)) by (assert (X := exp_ineq1 (F p)); lra).
      assert (Hd : forall k, (k < J)%nat -> firm k <> firm p -> F k <= d).
      { intros k Hk N. assert (X := falls_step F k (F p) HF Hk (Rlt_le _ _ L) (fun l Hl _ => G l Hl)).
        eapply Rle_trans; [exact X|]. destruct (best_share_range m k Hm Hk) as [[T0 T1] _].
        assert (Y := best_shares_add m k p Hm Hk Hp N). fold s in Y.
        apply fall_bound_mono; lra. }
      assert (D0 : 0 <= d).
      { unfold d, fall_bound. assert (W := fall_bound_den (1 - s) (exp (F p)) ltac:(lra) ltac:(lra)).
        apply Rmult_le_pos; [apply Rmult_le_pos; lra|]. left. apply Rinv_0_lt_compat. lra. }
      assert (X := falls_step F p d HF Hp D0 Hd). fold s in X.
      assert (Y := two_rounds s (F p) ltac:(lra) L). fold d in Y. lra. }
  destruct (eventually_all J (fun k n => fall n k <= F k + e)) as [N HN].
  { intros k Hk. apply (proj1 (proj1 (HF k Hk)) e He). }
  exists N. intros n Hn j Hj. assert (A := fall_ge n j). assert (B := HN n Hn j Hj). specialize (Z j Hj). lra.
Qed.

(** Lower limits. *)
Lemma run_lower : exists L, (forall j, (j < J)%nat -> limsup (fun n => - x n j) (- L j) /\ 1 <= L j).
Proof.
  assert (C : forall j, exists l, (j < J)%nat -> limsup (fun n => - x n j) (- l) /\ 1 <= l).
  { intros j. destruct (lt_dec j J) as [Hj|Hj]; [|exists 0; intros; contradiction].
    destruct (limsup_exists (fun n => - x n j) (- (1 + sumn J E)) (- (1))) as [l [H1 H2]].
    - eapply eventually_imp; [|exact run_bounded]. intros n H. specialize (H j Hj). lra.
    - exists (- l). intros _. rewrite Ropp_involutive. split; [assumption|lra]. }
  assert (G : forall K, exists L, forall j, (j < K)%nat -> (j < J)%nat -> limsup (fun n => - x n j) (- L j) /\ 1 <= L j).
  { induction K as [|K [L HL]]; [exists (fun _ => 0); intros; lia|]. destruct (C K) as [l Hl].
    exists (fun j => if Nat.eqb j K then l else L j). intros j Hj HJ. destruct (Nat.eqb_spec j K) as [->|]; [auto|].
    apply HL; [lia|assumption]. }
  destruct (G J) as [L HL]. exists L. intros j Hj. apply HL; assumption.
Qed.

Lemma run_lower_bound L : (forall j, (j < J)%nat -> limsup (fun n => - x n j) (- L j) /\ 1 <= L j) ->
  forall j, (j < J)%nat -> m j <= L j.
Proof.
  intros HL.
  assert (A : alike L).
  { intros j k Hj Hk F. assert (- L k = - L j); [|lra].
    apply (limsup_unique (fun n => - x n k) (fun n => - x n j)); [|apply HL; assumption|apply HL; assumption].
    exists 1%nat. intros n Hn. destruct n as [|n]; [lia|]. rewrite (run_alike n j k Hj Hk F). reflexivity. }
  apply above_fixed; [assumption|assumption|].
  intros j Hj. destruct (HL j Hj) as [Lj L1]. split; [assumption|]. apply Rnot_lt_le. intros Q.
  rewrite (own_is_common L j A Hj) in Q.
  (* gains close to the lower limit *)
  set (g := fun e => exp (- (2 * e)) * common (L j) j - (L j - 1 + 2 * e) * (1 + exp e * (rest L j - 1))).
  destruct (right_positive g) as [e [He Ge]].
  { unfold g. reg. }
  { unfold g. rewrite Rmult_0_r, Ropp_0, exp_0. lra. }
  unfold g in Ge.
  set (Re := 1 + exp e * (rest L j - 1)) in *.
  assert (ReE : rest (fun k => L k + - e) j = Re).
  { rewrite rest_shift by assumption. rewrite Ropp_involutive. reflexivity. }
  destruct (own_rest_pos (fun k => L k + - e) j Hj) as [_ Re1]. rewrite ReE in Re1.
  set (Ce := exp (- (2 * e)) * common (L j) j) in *.
  set (gam := (Ce - (L j - 1 + 2 * e) * Re) / (Ce + Re)).
  assert (Cp : 0 <= Ce).
  { unfold Ce. apply Rmult_le_pos; [left; apply exp_pos|apply (common_nonneg J firm E 1 HE)]. }
  assert (Gp : 0 < gam) by (apply Rdiv_lt_0_compat; lra).
  destruct run_at_least as [N1 H1].
  destruct (eventually_all J (fun k n => - x n k <= - L k + e)) as [N2 H2].
  { intros k Hk. apply (proj1 (proj1 (HL k Hk)) e He). }
  destruct (falls_vanish e He) as [N3 H3].
  set (N := S (Nat.max N1 (Nat.max N2 N3))).
  assert (Step : forall n, (N <= n)%nat -> x n j <= L j + 2 * e -> x n j + gam <= x (S n) j).
  { intros n Hn Hx. destruct n as [|n]; [lia|].
    assert (C := next_change (x (S n)) j (run_alike n) Hj). change (next (x (S n))) with (x (S (S n))) in C.
    rewrite (own_is_common (x (S n)) j (run_alike n) Hj) in C.
    destruct (own_rest_pos (x (S n)) j Hj) as [_ Pr].
    assert (O1 : 1 <= x (S n) j) by (apply H1; [lia|assumption]).
    assert (Rb : rest (x (S n)) j <= Re).
    { rewrite <- ReE. apply rest_anti. intros k Hk. specialize (H2 (S n) ltac:(lia) k Hk). lra. }
    assert (Cb : Ce <= common (x (S n) j) j).
    { unfold Ce. rewrite <- (common_shift (L j) (2 * e) j). apply (common_anti J firm E 1 P1 HE); assumption. }
    set (c := common (x (S n) j) j) in *. set (R1 := rest (x (S n)) j) in *.
    set (y := x (S n) j) in *. set (y' := x (S (S n)) j) in *.
    assert (K : (y' - y) * (c + R1) = c - (y - 1) * R1) by lra.
    assert (Gd : gam * (Ce + Re) = Ce - (L j - 1 + 2 * e) * Re) by (unfold gam; field; lra).
    assert (G1 : gam <= 1).
    { apply Rmult_le_reg_r with (Ce + Re); [lra|]. rewrite Gd.
      assert (0 <= (L j - 1 + 2 * e) * Re) by (apply Rmult_le_pos; lra). lra. }
    apply Rmult_le_reg_r with (c + R1); [lra|].
    assert (gam * (c + R1) <= c - (y - 1) * R1); [|lra].
    (* (1 - gam) c - (gam + y - 1) R1 >= (1 - gam) Ce - (gam + L - 1 + 2e) Re = 0 *)
    assert ((1 - gam) * Ce <= (1 - gam) * c) by (apply Rmult_le_compat_l; lra).
    assert ((gam + y - 1) * R1 <= (gam + (L j - 1 + 2 * e)) * Re).
    { apply Rle_trans with ((gam + y - 1) * Re); [apply Rmult_le_compat_l; lra|apply Rmult_le_compat_r; lra]. }
    lra. }
  assert (G : forall k, Rmin (L j + e) (L j - e + INR k * gam) <= x (N + k)%nat j).
  { induction k as [|k IH].
    - cbn [INR]. rewrite Rmult_0_l, Rplus_0_r, Nat.add_0_r. eapply Rle_trans; [apply Rmin_r|].
      specialize (H2 N ltac:(lia) j Hj). lra.
    - rewrite Nat.add_succ_r. destruct (Rle_lt_dec (x (N + k)%nat j) (L j + 2 * e)) as [Le|Lt].
      + eapply Rle_trans; [|apply Step; [lia|assumption]]. rewrite S_INR. revert IH. unfold Rmin.
        destruct (Rle_dec (L j + e) (L j - e + INR k * gam)), (Rle_dec (L j + e) (L j - e + (INR k + 1) * gam)); intros; lra.
      + eapply Rle_trans; [apply Rmin_l|]. specialize (H3 (N + k)%nat ltac:(lia) j Hj). lra. }
  destruct (INR_unbounded (2 * e / gam)) as [K HK].
  assert (HK2 : 2 * e <= INR K * gam).
  { left. apply Rmult_lt_reg_r with (/ gam); [apply Rinv_0_lt_compat; assumption|].
    replace (INR K * gam * / gam) with (INR K) by (field; lra). exact HK. }
  destruct (proj2 Lj (e / 2) ltac:(lra) (N + K)%nat) as [n [Hn Fn]].
  specialize (G (n - N)%nat). replace (N + (n - N))%nat with n in G by lia.
  assert (INR K * gam <= INR (n - N) * gam).
  { apply Rmult_le_compat_r; [lra|]. apply le_INR. lia. }
  rewrite Rmin_left in G by lra. lra.
Qed.

Lemma run_converges j : (j < J)%nat -> Un_cv (fun n => x n j) (m j).
Proof.
  intros Hj e He. destruct run_lower as [L HL]. assert (B := run_lower_bound L HL j Hj).
  destruct (run_below (e / 2) ltac:(lra)) as [N1 H1].
  destruct (proj1 (proj1 (HL j Hj)) (e / 2) ltac:(lra)) as [N2 H2].
  exists (Nat.max N1 N2). intros n Hn. specialize (H1 n ltac:(lia) j Hj). specialize (H2 n ltac:(lia)). cbn beta in H2.
  unfold R_dist. apply Rabs_def1; lra.
Qed.
End Limit.
End Unit.

(** For any marginal utility of the price. *)
Section Scaled.
Variables (J : nat) (firm : nat -> Z) (E : nat -> R) (a : R).
Hypothesis Ha : 0 < a.
Hypothesis HE : forall k, (k < J)%nat -> 0 < E k.

Lemma next_scaled m j : a * next J firm E a m j = next J firm E 1 (fun k => a * m k) j.
Proof.
  unfold next, firm_margin. rewrite Rmult_plus_distr_l, Rinv_r, Rinv_1, <- sumn_scal by lra. f_equal.
  apply sumn_ext. intros k Hk.
  assert (W : forall l, weight_of E a m l = weight_of E 1 (fun k => a * m k) l).
  { intros l. unfold weight_of. rewrite Rmult_1_l. reflexivity. }
  unfold share_at, all_weights. rewrite (sumn_ext J _ _ (fun l _ => W l)), (W k). ring.
Qed.

Lemma steps_scaled start n : forall j, (j < J)%nat ->
  a * steps J firm E a n start j = steps J firm E 1 n (fun k => a * start k) j.
Proof.
  induction n as [|n IH]; intros j Hj; [reflexivity|]. cbn [steps]. rewrite next_scaled.
  apply next_ext. exact IH.
Qed.

Lemma fixed_scaled m : fixed J firm E a m -> fixed J firm E 1 (fun k => a * m k).
Proof. intros F j Hj. rewrite <- next_scaled, (F j Hj). reflexivity. Qed.

Lemma steps_converge_anywhere start m j : fixed J firm E a m -> (j < J)%nat ->
  Un_cv (fun n => steps J firm E a n start j) (m j).
Proof.
  intros F Hj. assert (C := run_converges J firm E HE (fun k => a * start k) _ (fixed_scaled m F) j Hj).
  replace (m j) with (/ a * (a * m j)) by (field; lra).
  apply (cv_ext (fun n => / a * steps J firm E 1 n (fun k => a * start k) j)).
  - intros n. rewrite <- steps_scaled by assumption. field. lra.
  - apply (CV_mult (fun _ => / a)); [apply cv_const|assumption].
Qed.
End Scaled.
