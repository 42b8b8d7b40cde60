(** Accuracy of nested choice probabilities in floating point arithmetic, from relative errors. *)
From Coq Require Import Reals Lra Lia List Bool Arith Sorting.Permutation.
From Verif Require Import Base FltModel IterModel RoundModel RoundSpec RoundProofs RoundNested RoundAccuracy LogsumModel LogsumSpec LogsumProofs NearSpec.
Import ListNotations.
Local Open Scope R_scope.

(** Positive numbers that differ by a factor between exp (-k) and exp k. *)
Definition near (k x y : R) : Prop := 0 < y /\ y * exp (- k) <= x <= y * exp k.
Lemma exp_le a b : a <= b -> exp a <= exp b.
Proof. intros [H| ->]; [left; apply exp_increasing, H|right; reflexivity]. Qed.
Lemma near_pos k x y : near k x y -> 0 < x.
Proof. intros (P & L & _). assert (E := exp_pos (- k)). assert (0 < y * exp (- k)) by (apply Rmult_lt_0_compat; assumption). lra. Qed.
Lemma near_refl y : 0 < y -> near 0 y y.
Proof. intro P. split; [exact P|]. rewrite Ropp_0, exp_0. lra. Qed.
Lemma near_weak k k' x y : k <= k' -> near k x y -> near k' x y.
Proof.
  intros H (P & L & U). split; [exact P|]. assert (exp (- k') <= exp (- k)) by (apply exp_le; lra). assert (exp k <= exp k') by (apply exp_le; lra).
  assert (y * exp (- k') <= y * exp (- k)) by (apply Rmult_le_compat_l; lra). assert (y * exp k <= y * exp k') by (apply Rmult_le_compat_l; lra). lra.
Qed.
Lemma near_trans k k' x y z : near k x y -> near k' y z -> near (k + k') x z.
Proof.
  intros (P & L & U) (P' & L' & U'). split; [exact P'|]. rewrite Ropp_plus_distr, !exp_plus.
  assert (E1 := exp_pos k). assert (E2 := exp_pos (- k)).
  assert (z * exp (- k') * exp (- k) <= y * exp (- k)) by (apply Rmult_le_compat_r; lra).
  assert (y * exp k <= z * exp k' * exp k) by (apply Rmult_le_compat_r; lra).
  split; [|]; nra.
Qed.
Lemma near_plus k x y x' y' : near k x y -> near k x' y' -> near k (x + x') (y + y').
Proof. intros (P & L & U) (P' & L' & U'). split; [lra|]. rewrite !Rmult_plus_distr_r. lra. Qed.
Lemma near_inv k x y : near k x y -> near k (/ x) (/ y).
Proof.
  intro H. assert (Px := near_pos _ _ _ H). destruct H as (P & L & U). split; [apply Rinv_0_lt_compat, P|].
  assert (E : exp k * exp (- k) = 1) by (rewrite <- exp_plus, Rplus_opp_r; apply exp_0). assert (E1 := exp_pos k). assert (E2 := exp_pos (- k)).
  split.
  - apply Rmult_le_reg_r with (x * y); [apply Rmult_lt_0_compat; assumption|]. replace (/ y * exp (- k) * (x * y)) with (x * exp (- k)) by (field; lra). replace (/ x * (x * y)) with y by (field; lra).
    assert (x * exp (- k) <= y * exp k * exp (- k)) by (apply Rmult_le_compat_r; lra). rewrite Rmult_assoc, E in H. lra.
  - apply Rmult_le_reg_r with (x * y); [apply Rmult_lt_0_compat; assumption|]. replace (/ y * exp k * (x * y)) with (x * exp k) by (field; lra). replace (/ x * (x * y)) with y by (field; lra).
    assert (y * exp (- k) * exp k <= x * exp k) by (apply Rmult_le_compat_r; lra). rewrite Rmult_assoc, (Rmult_comm (exp (- k))), E in H. lra.
Qed.
Lemma near_mult k k' x y x' y' : near k x y -> near k' x' y' -> near (k + k') (x * x') (y * y').
Proof.
  intros H H'. assert (Px := near_pos _ _ _ H). assert (Px' := near_pos _ _ _ H'). destruct H as (P & L & U), H' as (P' & L' & U').
  split; [apply Rmult_lt_0_compat; assumption|]. rewrite Ropp_plus_distr, !exp_plus. assert (E1 := exp_pos (- k)). assert (E2 := exp_pos (- k')).
  split.
  - replace (y * y' * (exp (- k) * exp (- k'))) with ((y * exp (- k)) * (y' * exp (- k'))) by ring.
    apply Rmult_le_compat; [apply Rmult_le_pos; lra|apply Rmult_le_pos; lra|exact L|exact L'].
  - replace (y * y' * (exp k * exp k')) with ((y * exp k) * (y' * exp k')) by ring. apply Rmult_le_compat; lra.
Qed.
Lemma near_div k k' x y x' y' : near k x y -> near k' x' y' -> near (k + k') (x / x') (y / y').
Proof. intros H H'. apply near_mult; [exact H|apply near_inv, H']. Qed.
Lemma near_exp k a b : Rabs (a - b) <= k -> near k (exp a) (exp b).
Proof.
  intro H. assert (A1 := Rle_abs (a - b)). assert (A2 := Rle_abs (- (a - b))). rewrite Rabs_Ropp in A2. split; [apply exp_pos|]. rewrite <- !exp_plus. split; apply exp_le; lra.
Qed.
Lemma near_ln k x y : near k x y -> Rabs (ln x - ln y) <= k.
Proof.
  intro H. assert (Px := near_pos _ _ _ H). destruct H as (P & L & U).
  assert (ln_le : forall a b, 0 < a -> a <= b -> ln a <= ln b) by (intros a b Ha [Hb| ->]; [left; apply ln_increasing; assumption|right; reflexivity]).
  assert (E1 := exp_pos k). assert (E2 := exp_pos (- k)). assert (0 < y * exp (- k)) by (apply Rmult_lt_0_compat; assumption).
  apply ln_le in L; [|assumption]. apply ln_le in U; [|assumption]. rewrite ln_mult, ln_exp in L, U by assumption. apply Rabs_le. lra.
Qed.
Lemma near_relative k x y : 0 < y -> 0 <= k <= / 2 -> Rabs (x - y) <= k * y -> near (2 * k) x y.
Proof.
  intros P Hk H. assert (A1 := Rle_abs (x - y)). assert (A2 := Rle_abs (- (x - y))). rewrite Rabs_Ropp in A2. split; [exact P|].
  assert (B1 : 1 + k <= exp (2 * k)) by (assert (Q := exp_ineq1_le (2 * k)); lra).
  assert (B2 : exp (- (2 * k)) <= 1 - k).
  { rewrite exp_Ropp. assert (Q := exp_ineq1_le (2 * k)). assert (0 < exp (2 * k)) by apply exp_pos. apply Rmult_le_reg_r with (exp (2 * k)); [assumption|]. rewrite Rinv_l by lra.
    assert ((1 - k) * (1 + 2 * k) <= (1 - k) * exp (2 * k)) by (apply Rmult_le_compat_l; lra). nra. }
  assert (y * (1 + k) <= y * exp (2 * k)) by (apply Rmult_le_compat_l; lra). assert (y * exp (- (2 * k)) <= y * (1 - k)) by (apply Rmult_le_compat_l; lra). lra.
Qed.
Lemma exp_small k : 0 <= k <= / 2 -> exp k <= 1 + 2 * k.
Proof.
  intro H. assert (Q := exp_ineq1_le (- k)). assert (P := exp_pos k). rewrite exp_Ropp in Q.
  assert ((1 - k) * exp k <= 1) by (apply Rmult_le_reg_r with (/ exp k); [apply Rinv_0_lt_compat, P|]; rewrite Rmult_assoc, Rinv_r by lra; lra).
  apply Rmult_le_reg_l with (1 - k); [lra|]. nra.
Qed.
Lemma near_abs k x y : 0 <= k <= / 2 -> near k x y -> Rabs (x - y) <= 2 * k * y.
Proof.
  intros Hk (P & L & U). assert (E1 := exp_small k Hk). assert (E2 := exp_ineq1_le (- k)).
  assert (y * exp k <= y * (1 + 2 * k)) by (apply Rmult_le_compat_l; lra). assert (y * (1 + - k) <= y * exp (- k)) by (apply Rmult_le_compat_l; lra).
  assert (0 <= k * y) by (apply Rmult_le_pos; lra). apply Rabs_le. lra.
Qed.

Lemma one_min rho n : (0 < n)%nat -> min_rho (fun _ => rho) n = rho.
Proof.
  induction n as [|n IH]; [lia|]. intros _. destruct n as [|n]; [reflexivity|]. change (min_rho (fun _ => rho) (S (S n))) with (Rmin (min_rho (fun _ => rho) (S n)) rho).
  rewrite IH by lia. apply Rmin_left. lra.
Qed.

Section Near.
  Variables (A : arithmetic) (N : nat) (eps eta : R).
  Hypothesis HR : rounds A N.
  Hypothesis HE : exponential A.
  Hypothesis HL : logarithm A.
  Hypothesis HA : accurate A eps eta.
  Hypothesis HLA : log_accurate A eps.

  (** Rounding numbers that are not too small, and exponentials. *)
  Lemma near_rnd x lo : 0 < lo -> lo <= x -> eta <= eps * lo -> near (4 * eps) (rnd A x) x.
  Proof.
    intros Pl Hx He. assert (Q1 := eps_small _ _ _ HA). assert (Q2 := eta_small _ _ _ HA). assert (E := rnd_error _ _ _ HA x). rewrite (Rabs_pos_eq x) in E by lra.
    assert (eps * lo <= eps * x) by (apply Rmult_le_compat_l; lra). replace (4 * eps) with (2 * (2 * eps)) by ring. apply near_relative; lra.
  Qed.
  Lemma near_Exp x y k : Rabs (x - y) <= k -> near (2 * eps + k) (Exp A x) (exp y).
  Proof.
    intro H. assert (Q1 := eps_small _ _ _ HA). assert (Q2 := eta_small _ _ _ HA). eapply near_trans; [|apply near_exp, H].
    apply near_relative; [apply exp_pos|lra|apply (exp_error _ _ _ HA)].
  Qed.

  (** Sums, of which all terms are at least lo. *)
  Lemma rsum_near t x a b k lo B : (B * List.length (leaves t) <= N)%nat -> 0 < lo -> eta <= eps * lo ->
    (forall i, In i (leaves t) -> upto A B (x i) (a i) /\ lo <= a i /\ near k (a i) (b i)) ->
    exists s, upto A (B * List.length (leaves t)) (rsum A t x) s /\ lo <= s /\
      near (k + 4 * eps * (INR (List.length (leaves t)) - 1)) s (lsum (leaves t) b).
  Proof.
    intros HN Pl He. assert (Q1 := eps_small _ _ _ HA). assert (Q2 := eta_small _ _ _ HA). revert HN.
    induction t as [i|l IHl r IHr]; cbn [leaves rsum]; intros HN H.
    - destruct (H i (or_introl eq_refl)) as (U & L & C). exists (a i). cbn [List.length] in *. rewrite Nat.mul_1_r in *. split; [exact U|]. split; [exact L|].
      cbn [lsum]. rewrite Rplus_0_r. apply near_weak with k; [cbn [INR]; lra|exact C].
    - rewrite app_length, Nat.mul_add_distr_l in *. destruct IHl as (c & (Ec & Bc & Rc) & Lc & Cc); [lia|intros i Hi; apply H, in_or_app; auto|].
      destruct IHr as (d & (Ed & Bd & Rd) & Ld & Cd); [lia|intros i Hi; apply H, in_or_app; auto|].
      assert (T1 := leaves_pos l). assert (T2 := leaves_pos r).
      set (n := List.length (leaves l)) in *. set (m := List.length (leaves r)) in *.
      exists (rnd A (c + d)). unfold radd. rewrite Ec, Ed. cbn [fadd]. split; [apply (round_upto A N HR); [exact HN|rewrite plus_INR; lra]|]. split.
      + apply Rle_trans with c; [exact Lc|]. rewrite <- Rc at 1. apply (rounds_mono _ _ HR). lra.
      + rewrite lsum_app, plus_INR. replace (k + 4 * eps * (INR n + INR m - 1)) with (4 * eps + (k + 4 * eps * (INR n + INR m - 2))) by ring.
        apply near_trans with (c + d); [apply near_rnd with lo; lra|]. assert (0 <= eps * (INR m - 1)) by (apply Rmult_le_pos; lra). assert (0 <= eps * (INR n - 1)) by (apply Rmult_le_pos; lra).
        apply near_plus; [eapply near_weak; [|exact Cc]; lra|eapply near_weak; [|exact Cd]; lra].
  Qed.

  Section Market.
    Variables (J H U : nat) (v : nat -> R) (group : nat -> nat) (group_tree : nat -> tree) (groups_tree : tree) (rho : R) (several : bool).
    Hypothesis HG : nests J H group group_tree groups_tree.
    Hypothesis Hrho : 0 <= rho <= 1.
    Hypothesis Hv : forall k, (k < J)%nat -> - INR U <= v k <= INR U.
    Hypothesis HN : (4 * S J * S H <= N)%nat.
    Hypothesis HNU : (2 * U + J + H + 3 <= N)%nat.
    Hypothesis Heta : eta <= eps * exp (- (2 * INR U + INR J + 3)).
    Hypothesis Hsize : 64 * (INR U + INR J + INR H + 3) * eps <= 1.
    Let u : nat -> flt := fun k => Num (v k).
    Let yes : nat -> bool := fun _ => true.
    Let M := 2 * INR U + INR J + 1.
    Let lo := exp (- (M + 2)).
    Let d := 1 - rho.

    Lemma lo_pos : 0 < lo.
    Proof. apply exp_pos. Qed.
    Lemma lo_eta : eta <= eps * lo.
    Proof. unfold lo, M. replace (2 * INR U + INR J + 1 + 2) with (2 * INR U + INR J + 3) by ring. exact Heta. Qed.
    Lemma basics : 0 <= eps <= / 8 /\ 0 <= eta <= eps /\ 0 <= INR U /\ 0 <= INR J /\ 0 <= INR H /\ 0 <= INR U * eps /\ 0 <= INR J * eps /\ 0 <= INR H * eps.
    Proof.
      assert (Q1 := eps_small _ _ _ HA). assert (Q2 := eta_small _ _ _ HA). assert (P1 := pos_INR U). assert (P2 := pos_INR J). assert (P3 := pos_INR H).
      repeat split; try lra; apply Rmult_le_pos; lra.
    Qed.
    Lemma num k : (k < J)%nat -> exists r, u k = Num r.
    Proof. intros _. exists (v k). reflexivity. Qed.
    Lemma N1 : (1 <= N)%nat.
    Proof. clear - HNU. lia. Qed.

    Section Reduction.
      Variable r0 : R.
      Hypothesis E0 : reduction J u = Num r0.
      Hypothesis H0 : 0 <= r0 <= INR U.
      Hypothesis HM : forall k, (k < J)%nat -> v k <= r0.
      Let e (k : nat) : R := exp (v k - r0).

      Lemma term_near k : (k < J)%nat -> exists a, upto A 1 (exp_utility A J yes u true k) a /\ lo <= a /\ near ((2 * INR U + 7) * eps) a (e k).
      Proof.
        intro Hk. destruct basics as (Q1 & Q2 & P1 & P2 & P3 & R1 & R2 & R3). assert (HZ := HM k Hk). destruct (Hv k Hk) as [V1 V2].
        unfold exp_utility, yes. rewrite E0. unfold u, rsub, fsub. cbn [fneg fadd].
        destruct (round_within A N HR (2 * U) (v k + - r0) ltac:(clear - HNU; lia)) as (Er & _); [rewrite mult_INR; cbn [INR]; lra|]. rewrite Er. cbn [rexp].
        set (z := v k - r0). change (v k + - r0) with z. set (z' := rnd A z).
        assert (Z' : z' <= 0) by (apply (rnd_nonpos A N HR); unfold z; lra).
        assert (BE : 0 <= Exp A z' <= INR 1) by (split; [apply (exp_nonneg _ HE)|cbn [INR]; rewrite <- (exp_zero _ HE); apply (exp_mono _ HE), Z']).
        exists (rnd A (Exp A z')). assert (C1 : near (2 * eps + (2 * INR U + 1) * eps) (Exp A z') (exp z)).
        { apply near_Exp. assert (D := rnd_error _ _ _ HA z). fold z' in D. rewrite (Rabs_left1 z) in D by (unfold z; lra).
          assert (eps * - z <= eps * (2 * INR U)) by (apply Rmult_le_compat_l; unfold z; lra). lra. }
        assert (LE : exp (- (2 * INR U) - / 2) <= Exp A z').
        { eapply Rle_trans; [|apply (proj2 C1)]. rewrite <- exp_plus. apply exp_le. unfold z. lra. }
        assert (LL : lo <= exp (- (2 * INR U) - / 2)) by (apply exp_le; unfold M; lra).
        assert (C2 : near (4 * eps) (rnd A (Exp A z')) (Exp A z')) by (apply near_rnd with lo; [apply lo_pos|lra|apply lo_eta]).
        assert (C3 : near ((2 * INR U + 7) * eps) (rnd A (Exp A z')) (e k)) by (eapply near_weak; [|eapply near_trans; [exact C2|exact C1]]; lra).
        split; [apply (round_upto A N HR); [exact N1|exact BE]|]. split; [|exact C3].
        apply Rle_trans with (e k * exp (- ((2 * INR U + 7) * eps))); [|apply C3]. unfold e. rewrite <- exp_plus. apply exp_le. unfold M. lra.
      Qed.
      Definition a_ (k : nat) : R := match exp_utility A J yes u true k with Num r => r | _ => 0 end.
      Lemma a_near k : (k < J)%nat -> upto A 1 (exp_utility A J yes u true k) (a_ k) /\ lo <= a_ k /\ near ((2 * INR U + 7) * eps) (a_ k) (e k).
      Proof.
        intro Hk. destruct (term_near k Hk) as (a & Ua & La & Ca). assert (E : a_ k = a) by (unfold a_; rewrite (proj1 Ua); reflexivity). rewrite E. auto.
      Qed.

      Let s_ (h : nat) : R := lsum (leaves (group_tree h)) e.
      Lemma members h k : (h < H)%nat -> (In k (leaves (group_tree h)) <-> (k < J)%nat /\ group k = h).
      Proof. intro Hh. exact (group_In J H group group_tree groups_tree HG h k Hh). Qed.
      Lemma size h : (h < H)%nat -> (List.length (leaves (group_tree h)) <= J)%nat.
      Proof. intro Hh. exact (group_length J H group group_tree groups_tree HG h Hh). Qed.

      Lemma inclusive_near h : (h < H)%nat -> exists s, upto A J (inclusive A J yes u group_tree h) s /\ lo <= s /\ near ((2 * INR U + 4 * INR J + 7) * eps) s (s_ h).
      Proof.
        intro Hh. destruct basics as (Q1 & Q2 & P1 & P2 & P3 & R1 & R2 & R3). assert (G := size h Hh).
        assert (GJ : INR (List.length (leaves (group_tree h))) <= INR J) by (apply le_INR, G).
        destruct (rsum_near (group_tree h) (exp_utility A J yes u true) a_ e ((2 * INR U + 7) * eps) lo 1) as (s & (Es & Bs & Rs) & Ls & Cs).
        { clear - G HNU. lia. }
        { apply lo_pos. }
        { apply lo_eta. }
        { intros i Hi. apply (members h i Hh) in Hi. apply a_near, Hi. }
        rewrite Nat.mul_1_l in Bs. exists s. split; [split; [exact Es|split; [lra|exact Rs]]|]. split; [exact Ls|].
        eapply near_weak; [|exact Cs]. assert (eps * (INR (List.length (leaves (group_tree h))) - 1) <= eps * INR J) by (apply Rmult_le_compat_l; lra). lra.
      Qed.
      Lemma lsum_le l f g : (forall i, In i l -> f i <= g i) -> lsum l f <= lsum l g.
      Proof. induction l as [|i l IH]; cbn [lsum]; intro Hl; [lra|]. assert (T := Hl i (or_introl eq_refl)). assert (T2 := IH (fun k Hk => Hl k (or_intror Hk))). lra. Qed.
      Lemma lsum_const l : lsum l (fun _ => 1) = INR (List.length l).
      Proof. induction l as [|i l IH]; [reflexivity|]. cbn [lsum]. change (List.length (i :: l)) with (S (List.length l)). rewrite S_INR, IH. ring. Qed.
      Lemma s_bounds h : (h < H)%nat -> exp (- (2 * INR U)) <= s_ h <= INR J.
      Proof.
        intro Hh. split.
        - unfold s_. assert (T : forall i, In i (leaves (group_tree h)) -> exp (- (2 * INR U)) <= e i).
          { intros i Hi. apply (members h i Hh) in Hi. apply exp_le. assert (Q := Hv i (proj1 Hi)). lra. }
          destruct (leaves (group_tree h)) as [|i l] eqn:El; [assert (Q := leaves_pos (group_tree h)); rewrite El in Q; cbn in Q; lra|]. cbn [lsum].
          assert (T1 := T i (or_introl eq_refl)). assert (T2 : lsum l (fun _ => 0) <= lsum l e) by (apply lsum_le; intros k _; left; apply exp_pos).
          assert (T3 : lsum l (fun _ => 0) = 0) by (clear; induction l; cbn [lsum]; [reflexivity|lra]). lra.
        - apply Rle_trans with (lsum (leaves (group_tree h)) (fun _ => 1)).
          + apply lsum_le. intros i Hi. apply (members h i Hh) in Hi. unfold e. rewrite <- exp_0. apply exp_le. assert (Q := HM i (proj1 Hi)). lra.
          + rewrite lsum_const. apply le_INR, size, Hh.
      Qed.
      Lemma s_log h : (h < H)%nat -> - (2 * INR U) <= ln (s_ h) <= INR J.
      Proof.
        intro Hh. destruct (s_bounds h Hh) as [L1 L2]. assert (P := exp_pos (- (2 * INR U))).
        assert (ln_le : forall a b, 0 < a -> a <= b -> ln a <= ln b) by (intros a b Ha [Hb| ->]; [left; apply ln_increasing; assumption|right; reflexivity]).
        split; [rewrite <- (ln_exp (- (2 * INR U))); apply ln_le; assumption|].
        assert (Q := exp_ineq1_le (ln (s_ h))). rewrite exp_ln in Q by lra. lra.
      Qed.

      Let d' := rnd A (1 - rho).
      Lemma damp h : dampener A (fun _ => rho) h = Num d' /\ 0 <= d' <= 1 /\ Rabs (d' - d) <= 2 * eps.
      Proof.
        destruct basics as (Q1 & Q2 & P1 & P2 & P3 & R1 & R2 & R3). unfold dampener, rsub, fsub. cbn [fneg fadd]. replace (1 + - rho) with (1 - rho) by ring.
        destruct (round_upto A N HR 1 (1 - rho) N1 ltac:(cbn [INR]; lra)) as (E & B & _). cbn [INR] in B. split; [exact E|]. split; [exact B|].
        assert (D := rnd_error _ _ _ HA (1 - rho)). rewrite (Rabs_pos_eq (1 - rho)) in D by lra. fold d' d in D. assert (eps * (1 - rho) <= eps * 1) by (apply Rmult_le_compat_l; lra). unfold d in *. lra.
      Qed.

      (** The power of the inclusive sum. *)
      Let P_ (h : nat) : R := exp (d * ln (s_ h)).
      Let K4 := (14 * INR U + 10 * INR J + 22) * eps.
      Lemma weighted_near h : (h < H)%nat -> exists w, upto A (3 * S J) (weighted_inclusive A J yes u group_tree (fun _ => rho) h) w /\ lo <= w /\ near K4 w (P_ h).
      Proof.
        intro Hh. destruct basics as (Q1 & Q2 & P1 & P2 & P3 & R1 & R2 & R3). destruct (inclusive_near h Hh) as (s & (Es & Bs & Rs) & Ls & Cs).
        assert (K4s : K4 <= / 2) by (unfold K4; lra). assert (NL := near_ln _ _ _ Cs). destruct (s_log h Hh) as [SL1 SL2].
        assert (A1 := Rle_abs (ln s - ln (s_ h))). assert (A2 := Rle_abs (- (ln s - ln (s_ h)))). rewrite Rabs_Ropp in A2.
        assert (Ps : 0 < s) by (assert (T := lo_pos); lra).
        assert (LM : Rabs (ln s) <= M) by (apply Rabs_le; unfold M; lra).
        destruct (damp h) as (Ed & Bd & Dd). unfold weighted_inclusive. rewrite Es, Ed. cbn [rlog]. destruct (Rlt_dec s 0); [lra|]. destruct (Req_EM_T s 0); [lra|].
        assert (D1 := HLA s Ps). assert (eps * Rabs (ln s) <= eps * M) by (apply Rmult_le_compat_l; lra).
        assert (eM : eps * M <= / 8) by (unfold M; lra).
        assert (B1 := Rle_abs (Log A s - ln s)). assert (B2 := Rle_abs (- (Log A s - ln s))). rewrite Rabs_Ropp in B2.
        assert (LM1 := Rle_abs (ln s)). assert (LM2 := Rle_abs (- ln s)). rewrite Rabs_Ropp in LM2.
        assert (LA : Rabs (Log A s) <= M + / 8) by (apply Rabs_le; lra).
        assert (IM : INR (2 * U + J + 2) = M + 1) by (rewrite !plus_INR, mult_INR; unfold M; cbn [INR]; ring).
        destruct (round_within A N HR (2 * U + J + 2) (Log A s) ltac:(clear - HNU; lia)) as (El & Bl & _); [assert (T1 := Rle_abs (Log A s)); assert (T2 := Rle_abs (- Log A s)); rewrite Rabs_Ropp in T2; lra|].
        rewrite El. set (l := rnd A (Log A s)) in *. assert (D2 := rnd_error _ _ _ HA (Log A s)). fold l in D2.
        assert (eps * Rabs (Log A s) <= eps * (M + / 8)) by (apply Rmult_le_compat_l; lra).
        assert (C1 := Rle_abs (l - Log A s)). assert (C2 := Rle_abs (- (l - Log A s))). rewrite Rabs_Ropp in C2.
        assert (DL : Rabs (l - ln (s_ h)) <= (2 * INR U + 4 * INR J + 7) * eps + 2 * (eps * M) + 2 * eps) by (apply Rabs_le; lra).
        unfold rmul. cbn [fmul].
        assert (LD : Rabs (l * d') <= M + 1).
        { rewrite Rabs_mult, (Rabs_pos_eq d') by lra. assert (Rabs l <= M + 1) by (apply Rabs_le; lra). assert (Rabs l * d' <= Rabs l * 1) by (apply Rmult_le_compat_l; [apply Rabs_pos|lra]). lra. }
        destruct (round_within A N HR (2 * U + J + 2) (l * d') ltac:(clear - HNU; lia)) as (Em & Bm & _); [assert (T1 := Rle_abs (l * d')); assert (T2 := Rle_abs (- (l * d'))); rewrite Rabs_Ropp in T2; lra|].
        rewrite Em. set (m := rnd A (l * d')) in *. assert (D3 := rnd_error _ _ _ HA (l * d')). fold m in D3.
        assert (eps * Rabs (l * d') <= eps * (M + 1)) by (apply Rmult_le_compat_l; lra).
        assert (X : Rabs (l * d' - d * ln (s_ h)) <= Rabs (l - ln (s_ h)) + M * (2 * eps)).
        { replace (l * d' - d * ln (s_ h)) with ((l - ln (s_ h)) * d' + ln (s_ h) * (d' - d)) by ring. eapply Rle_trans; [apply Rabs_triang|]. rewrite !Rabs_mult, (Rabs_pos_eq d') by lra.
          apply Rplus_le_compat.
          - assert (Rabs (l - ln (s_ h)) * d' <= Rabs (l - ln (s_ h)) * 1) by (apply Rmult_le_compat_l; [apply Rabs_pos|lra]). lra.
          - apply Rmult_le_compat; [apply Rabs_pos|apply Rabs_pos|apply Rabs_le; unfold M; lra|exact Dd]. }
        assert (DM : Rabs (m - d * ln (s_ h)) <= (14 * INR U + 10 * INR J + 16) * eps).
        { replace (m - d * ln (s_ h)) with ((m - l * d') + (l * d' - d * ln (s_ h))) by ring. eapply Rle_trans; [apply Rabs_triang|]. unfold M in *. lra. }
        assert (PU : exp (- M + 1) <= P_ h <= INR (S J)).
        { assert (dd : 0 <= d <= 1) by (unfold d; lra). split.
          - apply exp_le. unfold M. destruct (Rle_dec 0 (ln (s_ h))) as [T|T].
            + assert (0 <= d * ln (s_ h)) by (apply Rmult_le_pos; lra). assert (1 <= INR J) by (assert (T2 := s_bounds h Hh); assert (T3 : 1 <= s_ h) by (rewrite <- (exp_ln (s_ h)) by (assert (T4 := exp_pos (- (2 * INR U))); lra); rewrite <- exp_0; apply exp_le; lra); lra). lra.
            + assert (d * - ln (s_ h) <= 1 * - ln (s_ h)) by (apply Rmult_le_compat_r; lra). lra.
          - rewrite S_INR. destruct (Rle_dec 0 (ln (s_ h))) as [T|T].
            + apply Rle_trans with (s_ h); [|assert (T2 := s_bounds h Hh); lra]. apply Rle_trans with (exp (ln (s_ h))).
              * apply exp_le. assert (d * ln (s_ h) <= 1 * ln (s_ h)) by (apply Rmult_le_compat_r; lra). lra.
              * rewrite exp_ln; [lra|]. assert (T2 := s_bounds h Hh). assert (T3 := exp_pos (- (2 * INR U))). lra.
            + apply Rle_trans with 1; [|lra]. rewrite <- exp_0. apply exp_le. assert (0 <= d * - ln (s_ h)) by (apply Rmult_le_pos; lra). lra. }
        assert (CE : near (2 * eps + (14 * INR U + 10 * INR J + 16) * eps) (Exp A m) (P_ h)) by (apply near_Exp, DM).
        assert (E2 : exp (/ 2) <= 2) by (assert (T := exp_small (/ 2) ltac:(lra)); lra).
        assert (UE : Exp A m <= INR (3 * S J)).
        { eapply Rle_trans; [apply (proj2 (proj2 CE))|]. rewrite mult_INR. replace (INR 3) with 3 by (cbn; ring). assert (PP := exp_pos (d * ln (s_ h))). fold (P_ h) in PP.
          assert (TE : exp (2 * eps + (14 * INR U + 10 * INR J + 16) * eps) <= 2) by (eapply Rle_trans; [apply exp_le|exact E2]; unfold K4 in K4s; lra).
          assert (P_ h * exp (2 * eps + (14 * INR U + 10 * INR J + 16) * eps) <= INR (S J) * 2) by (apply Rmult_le_compat; [lra|left; apply exp_pos|lra|exact TE]).
          assert (0 <= INR (S J)) by apply pos_INR. lra. }
        assert (LE : exp (- M) <= Exp A m).
        { eapply Rle_trans; [|apply (proj1 (proj2 CE))]. apply Rle_trans with (exp (- M + 1) * exp (- (2 * eps + (14 * INR U + 10 * INR J + 16) * eps))).
          - rewrite <- exp_plus. apply exp_le. unfold K4 in K4s. lra.
          - apply Rmult_le_compat_r; [left; apply exp_pos|lra]. }
        assert (LL : lo <= exp (- M - 1)) by (apply exp_le; lra). assert (LL2 : exp (- M - 1) <= exp (- M)) by (apply exp_le; lra).
        assert (CR : near (4 * eps) (rnd A (Exp A m)) (Exp A m)) by (apply near_rnd with lo; [apply lo_pos|lra|apply lo_eta]).
        assert (CC : near K4 (rnd A (Exp A m)) (P_ h)) by (eapply near_weak; [|eapply near_trans; [exact CR|exact CE]]; unfold K4; lra).
        assert (UT : upto A (3 * S J) (rexp A (Num m)) (rnd A (Exp A m))).
        { cbn [rexp]. apply (round_upto A N HR); [clear - HN; nia|split; [apply (exp_nonneg _ HE)|exact UE]]. }
        exists (rnd A (Exp A m)). rewrite (finite_upto A (3 * S J) _ _ UT). split; [exact UT|]. split; [|exact CC].
        apply Rle_trans with (exp (- M - 1)); [exact LL|]. apply Rle_trans with (P_ h * exp (- K4)); [|apply CC].
        apply Rle_trans with (exp (- M + 1) * exp (- K4)); [|apply Rmult_le_compat_r; [left; apply exp_pos|lra]]. rewrite <- exp_plus. apply exp_le. lra.
      Qed.

      Lemma scaled_near : exists o, upto A 1 (rexp A (rmul A (fneg (Num r0)) (Num d'))) o /\ lo <= o /\ near K4 o (exp (- r0 * d)).
      Proof.
        destruct basics as (Q1 & Q2 & P1 & P2 & P3 & R1 & R2 & R3). destruct (damp 0) as (_ & Bd & Dd). assert (K4s : K4 <= / 2) by (unfold K4; lra).
        unfold rmul. cbn [fneg fmul].
        assert (LZ : - INR U <= - r0 * d' <= 0) by (assert (0 <= r0 * d') by (apply Rmult_le_pos; lra); assert (r0 * d' <= r0 * 1) by (apply Rmult_le_compat_l; lra); lra).
        destruct (round_within A N HR (2 * U + J + 2) (- r0 * d') ltac:(clear - HNU; lia)) as (Em & _ & _); [rewrite !plus_INR, mult_INR; cbn [INR]; lra|]. rewrite Em. cbn [rexp].
        set (m := rnd A (- r0 * d')). assert (Z' : m <= 0) by (apply (rnd_nonpos A N HR); lra). assert (D := rnd_error _ _ _ HA (- r0 * d')). fold m in D.
        rewrite (Rabs_left1 (- r0 * d')) in D by lra. assert (eps * - (- r0 * d') <= eps * INR U) by (apply Rmult_le_compat_l; lra).
        assert (X : Rabs (- r0 * d' - - r0 * d) <= INR U * (2 * eps)).
        { replace (- r0 * d' - - r0 * d) with (- (r0 * (d' - d))) by ring. rewrite Rabs_Ropp, Rabs_mult, (Rabs_pos_eq r0) by lra. apply Rmult_le_compat; [lra|apply Rabs_pos|lra|exact Dd]. }
        assert (DM : Rabs (m - - r0 * d) <= (3 * INR U + 1) * eps).
        { replace (m - - r0 * d) with ((m - - r0 * d') + (- r0 * d' - - r0 * d)) by ring. eapply Rle_trans; [apply Rabs_triang|]. lra. }
        assert (CE : near (2 * eps + (3 * INR U + 1) * eps) (Exp A m) (exp (- r0 * d))) by (apply near_Exp, DM).
        assert (dd : - r0 * d >= - INR U) by (assert (0 <= r0 * rho) by (apply Rmult_le_pos; lra); unfold d; lra).
        assert (LE : exp (- M) <= Exp A m).
        { eapply Rle_trans; [|apply (proj1 (proj2 CE))]. rewrite <- exp_plus. apply exp_le. unfold K4, M in *. lra. }
        assert (LL : lo <= exp (- M)) by (apply exp_le; lra).
        assert (CR : near (4 * eps) (rnd A (Exp A m)) (Exp A m)) by (apply near_rnd with lo; [apply lo_pos|lra|apply lo_eta]).
        assert (CC : near K4 (rnd A (Exp A m)) (exp (- r0 * d))) by (eapply near_weak; [|eapply near_trans; [exact CR|exact CE]]; unfold K4; lra).
        exists (rnd A (Exp A m)). split; [|split; [|exact CC]].
        - apply (round_upto A N HR); [exact N1|]. split; [apply (exp_nonneg _ HE)|]. cbn [INR]. rewrite <- (exp_zero _ HE). apply (exp_mono _ HE), Z'.
        - apply Rle_trans with (exp (- r0 * d) * exp (- K4)); [|apply CC]. rewrite <- exp_plus. apply exp_le. unfold M. lra.
      Qed.

      Let D_ : R := exp (- r0 * d) + lsum (leaves groups_tree) P_.
      Let K5 := K4 + (4 * INR H + 4) * eps.
      Definition w_ (h : nat) : R := match weighted_inclusive A J yes u group_tree (fun _ => rho) h with Num r => r | _ => 0 end.
      Lemma groups_In h : In h (leaves groups_tree) <-> (h < H)%nat.
      Proof. assert (P := nests_groups _ _ _ _ _ HG). split; intro I; [apply (Permutation_in _ P), in_seq in I; lia|apply (Permutation_in _ (Permutation_sym P)), in_seq; lia]. Qed.
      Lemma groups_length : List.length (leaves groups_tree) = H.
      Proof. rewrite (Permutation_length (nests_groups _ _ _ _ _ HG)). apply seq_length. Qed.
      Lemma den_near (x : nat -> flt) : (forall h, (h < H)%nat -> x h = Num 1) ->
        exists D, radd A (rexp A (rmul A (fneg (Num r0)) (Num d'))) (rsum A groups_tree (fun h => rmul A (x h) (weighted_inclusive A J yes u group_tree (fun _ => rho) h))) = Num D /\
          lo <= D /\ near K5 D D_.
      Proof.
        intro Hx. destruct basics as (Q1 & Q2 & P1 & P2 & P3 & R1 & R2 & R3). destruct scaled_near as (o & (Eo & Bo & Ro) & Lo & Co).
        destruct (rsum_near groups_tree (fun h => rmul A (x h) (weighted_inclusive A J yes u group_tree (fun _ => rho) h)) w_ P_ K4 lo (3 * S J)) as (s & (Es & Bs & Rs) & Ls & Cs).
        { rewrite groups_length. clear - HN. nia. }
        { apply lo_pos. }
        { apply lo_eta. }
        { intros h Hh. apply groups_In in Hh. destruct (weighted_near h Hh) as (w & (Ew & Bw & Rw) & Lw & Cw). unfold w_. rewrite Ew, (Hx h Hh). unfold rmul. cbn [fmul]. rewrite Rmult_1_l.
          destruct (round_upto A N HR (3 * S J) w ltac:(clear - HN; nia) Bw) as (E' & _). rewrite Rw in E'. split; [split; [exact E'|split; [exact Bw|exact Rw]]|]. split; assumption. }
        rewrite groups_length in *. rewrite Eo, Es. unfold radd. cbn [fadd].
        destruct (round_upto A N HR (1 + 3 * S J * H) (o + s) ltac:(clear - HN; nia)) as (E' & B' & R'); [rewrite plus_INR; lra|]. rewrite E'. exists (rnd A (o + s)). split; [reflexivity|].
        assert (CR : near (4 * eps) (rnd A (o + s)) (o + s)) by (apply near_rnd with lo; [apply lo_pos|assert (T := lo_pos); lra|apply lo_eta]).
        split.
        - apply Rle_trans with ((o + s) * exp (- (4 * eps))); [|apply CR]. assert (T := exp_ineq1_le (- (4 * eps))). assert (T2 := lo_pos).
          apply Rle_trans with ((lo + lo) * / 2); [lra|]. apply Rmult_le_compat; lra.
        - unfold D_. apply near_weak with (4 * eps + (K4 + 4 * eps * INR H)); [unfold K5; lra|]. apply near_trans with (o + s); [exact CR|].
          apply near_plus; [eapply near_weak; [|exact Co]; lra|eapply near_weak; [|exact Cs]; lra].
      Qed.
      Lemma P_pos h : 0 < P_ h.
      Proof. apply exp_pos. Qed.
      Lemma P_le h : (h < H)%nat -> P_ h <= D_.
      Proof.
        intro Hh. unfold D_. assert (T := exp_pos (- r0 * d)). apply groups_In in Hh. assert (T2 : P_ h <= lsum (leaves groups_tree) P_); [|lra]. revert Hh. generalize (leaves groups_tree). clear.
        assert (nn : forall l, 0 <= lsum l P_) by (induction l as [|i l IH]; cbn [lsum]; [lra|assert (T := P_pos i); lra]).
        induction l as [|i l IH]; cbn [lsum]; intro Hh; [destruct Hh|]. assert (T := P_pos i). assert (T1 := nn l). destruct Hh as [ -> |Hh]; [lra|specialize (IH Hh); lra].
      Qed.

      Lemma quotient_near a b a' b' ka kb : 0 <= ka -> 0 <= kb -> ka + kb <= / 2 -> 0 < b' -> near ka a a' -> near kb b b' -> a' <= b' ->
        exists q, rdiv A (Num a) (Num b) = Num q /\ Rabs q <= 2 /\ Rabs (q - a' / b') <= 2 * (ka + kb) + 3 * eps.
      Proof.
        intros Hka Hkb Hk Pb Ca Cb Le. destruct basics as (Q1 & Q2 & _). assert (Pbb := near_pos _ _ _ Cb). assert (Pa := near_pos _ _ _ Ca). assert (Pa' : 0 < a') by apply Ca.
        unfold rdiv. cbn [fdiv]. destruct (Req_EM_T b 0); [lra|]. assert (C := near_div _ _ _ _ _ _ Ca Cb). assert (U1 : 0 < a' / b' <= 1).
        { split; [apply Rdiv_lt_0_compat; lra|]. apply Rmult_le_reg_r with b'; [lra|]. unfold Rdiv. rewrite Rmult_assoc, Rinv_l by lra. lra. }
        assert (D := near_abs (ka + kb) _ _ ltac:(lra) C). assert (2 * (ka + kb) * (a' / b') <= 2 * (ka + kb) * 1) by (apply Rmult_le_compat_l; lra).
        assert (T1 := Rle_abs (a / b - a' / b')). assert (PQ : 0 < a / b) by (apply Rdiv_lt_0_compat; lra).
        assert (L4 : (4 <= N)%nat) by (clear - HN; nia).
        destruct (round_upto A N HR 2 (a / b) ltac:(clear - L4; lia)) as (E & B & _); [cbn [INR]; lra|]. rewrite E. exists (rnd A (a / b)). split; [reflexivity|].
        cbn [INR] in B. split; [rewrite Rabs_pos_eq by lra; lra|].
        assert (DR := rnd_error _ _ _ HA (a / b)). rewrite (Rabs_pos_eq (a / b)) in DR by lra. assert (eps * (a / b) <= eps * 2) by (apply Rmult_le_compat_l; lra).
        replace (rnd A (a / b) - a' / b') with ((rnd A (a / b) - a / b) + (a / b - a' / b')) by ring. eapply Rle_trans; [apply Rabs_triang|]. lra.
      Qed.

      Lemma s_pos h : (h < H)%nat -> 0 < s_ h.
      Proof. intro Hh. assert (T := s_bounds h Hh). assert (T2 := exp_pos (- (2 * INR U))). lra. Qed.
      Lemma e_le j : (j < J)%nat -> e j <= s_ (group j).
      Proof.
        intro Hj. assert (I : In j (leaves (group_tree (group j)))) by (apply members; [apply (nests_group _ _ _ _ _ HG), Hj|auto]). unfold s_. revert I. generalize (leaves (group_tree (group j))). clear.
        assert (nn : forall l, 0 <= lsum l e) by (induction l as [|i l IH]; cbn [lsum]; [lra|assert (T := exp_pos (v i - r0)); fold (e i) in T; lra]).
        induction l as [|i l IH]; cbn [lsum]; intro Hh; [destruct Hh|]. assert (T := exp_pos (v i - r0)). fold (e i) in T. assert (T1 := nn l). destruct Hh as [ -> |Hh]; [lra|specialize (IH Hh); lra].
      Qed.

      Lemma probability_scaled j : (j < J)%nat -> exists p, nested_probability A J yes true u group group_tree groups_tree (fun _ => rho) several j = Num p /\
        Rabs (p - e j / s_ (group j) * (P_ (group j) / D_)) <= 64 * (INR U + INR J + INR H + 3) * eps.
      Proof.
        intro Hj. destruct basics as (Q1 & Q2 & P1 & P2 & P3 & R1 & R2 & R3). assert (Hg := nests_group _ _ _ _ _ HG j Hj).
        assert (L4 : (4 <= N)%nat) by (clear - HN; nia).
        unfold nested_probability.
        destruct (a_near j Hj) as ((Ea & _) & La & Ca). destruct (inclusive_near (group j) Hg) as (s & (Es & _) & Ls & Cs).
        destruct (quotient_near (a_ j) s (e j) (s_ (group j)) ((2 * INR U + 7) * eps) ((2 * INR U + 4 * INR J + 7) * eps)) as (c & Ec & Bc & Dc); try (apply s_pos, Hg); try (apply e_le, Hj); try assumption; try lra.
        assert (E1 : conditional A J yes u group group_tree j = Num c) by (unfold conditional; rewrite Ea, Es, Ec; reflexivity).
        destruct (conditional_upto A N HR HE J H 1 u group group_tree groups_tree num HG ltac:(clear - HN; nia) ltac:(clear - HNU; lia) j Hj) as (c1 & E1' & Bc1 & _).
        assert (c1 = c) by (fold yes in E1'; rewrite E1 in E1'; injection E1'; intros; congruence). subst c1. cbn [INR] in Bc1.
        destruct (weighted_near (group j) Hg) as (w & (Ew & _) & Lw & Cw).
        destruct (den_near (scale_weight A J u (fun _ => rho) several (group j))) as (D & ED & LD & CD).
        { intros h Hh. apply (scale_weight_one A N HR HE J H 1 u (fun _ => rho) several (fun _ _ _ _ _ => eq_refl) ltac:(clear - HN; nia) (group j) h r0 Hg Hh E0). }
        assert (PD : 0 < D_) by (assert (T := P_le (group j) Hg); assert (T2 := P_pos (group j)); lra).
        destruct (quotient_near w D (P_ (group j)) D_ K4 K5) as (m & Em & Bm & Dm); try (apply P_le, Hg); try assumption; unfold K5, K4 in *; try lra.
        assert (E2 : marginal A J yes true u group_tree groups_tree (fun _ => rho) several (group j) = Num m).
        { unfold marginal, nested_scale. rewrite E0, (proj1 (damp (group j))), ED, Ew. exact Em. }
        rewrite E1, E2. unfold rmul. cbn [fmul].
        assert (BQ : Rabs (c * m) <= 2) by (rewrite Rabs_mult, (Rabs_pos_eq c) by lra; assert (c * Rabs m <= 1 * 2) by (apply Rmult_le_compat; try lra; apply Rabs_pos); lra).
        destruct (round_within A N HR 2 (c * m) ltac:(clear - L4; lia)) as (Ep & _ & _); [cbn [INR]; assert (T1 := Rle_abs (c * m)); assert (T2 := Rle_abs (- (c * m))); rewrite Rabs_Ropp in T2; lra|].
        rewrite Ep. exists (rnd A (c * m)). split; [reflexivity|]. set (c0 := e j / s_ (group j)) in *. set (m0 := P_ (group j) / D_) in *.
        assert (B0 : 0 <= m0 <= 1).
        { unfold m0. assert (T := P_le (group j) Hg). assert (T2 := P_pos (group j)). split; [left; apply Rdiv_lt_0_compat; lra|]. apply Rmult_le_reg_r with D_; [lra|]. unfold Rdiv. rewrite Rmult_assoc, Rinv_l by lra. lra. }
        assert (DR := rnd_error _ _ _ HA (c * m)). assert (eps * Rabs (c * m) <= eps * 2) by (apply Rmult_le_compat_l; lra).
        replace (rnd A (c * m) - c0 * m0) with ((rnd A (c * m) - c * m) + (c * (m - m0) + (c - c0) * m0)) by ring.
        eapply Rle_trans; [apply Rabs_triang|]. assert (Rabs (c * (m - m0) + (c - c0) * m0) <= Rabs (m - m0) + Rabs (c - c0)).
        { eapply Rle_trans; [apply Rabs_triang|]. rewrite !Rabs_mult, (Rabs_pos_eq c), (Rabs_pos_eq m0) by lra.
          assert (c * Rabs (m - m0) <= 1 * Rabs (m - m0)) by (apply Rmult_le_compat_r; [apply Rabs_pos|lra]).
          assert (Rabs (c - c0) * m0 <= Rabs (c - c0) * 1) by (apply Rmult_le_compat_l; [apply Rabs_pos|lra]). lra. }
        lra.
      Qed.

      (** Back to sums of exponentials that are not scaled. *)
      Lemma lsum_filter l f x : lsum (filter f l) x = lsum l (fun i => if f i then x i else 0).
      Proof. induction l as [|i l IH]; [reflexivity|]. cbn [filter lsum]. destruct (f i); cbn [lsum]; rewrite IH; ring. Qed.
      Lemma s_exact h : (h < H)%nat -> s_ h = inclusive_sum J group v h * exp (- r0).
      Proof.
        intro Hh. unfold s_. rewrite (lsum_perm _ _ _ (nests_add _ _ _ _ _ HG h Hh)), lsum_filter, lsum_seq. unfold inclusive_sum. rewrite <- sumn_scal_r. apply sumn_ext. intros k Hk.
        destruct (Nat.eqb (group k) h); [unfold e; rewrite <- exp_plus; reflexivity|ring].
      Qed.
      Lemma sum_pos h : (h < H)%nat -> 0 < inclusive_sum J group v h.
      Proof. intro Hh. assert (T := s_pos h Hh). rewrite (s_exact h Hh) in T. assert (T2 := exp_pos (- r0)). destruct (Rlt_dec 0 (inclusive_sum J group v h)) as [P|P]; [exact P|]. assert (inclusive_sum J group v h * exp (- r0) <= 0 * exp (- r0)) by (apply Rmult_le_compat_r; lra). lra. Qed.
      Lemma P_exact h : (h < H)%nat -> P_ h = powered_sum J group rho v h * exp (- r0 * d).
      Proof.
        intro Hh. unfold P_, powered_sum. fold d. rewrite (s_exact h Hh), ln_mult, ln_exp, <- exp_plus; [f_equal; ring|apply sum_pos, Hh|apply exp_pos].
      Qed.
      Lemma D_exact : D_ = (1 + sumn H (powered_sum J group rho v)) * exp (- r0 * d).
      Proof.
        unfold D_. rewrite (lsum_perm _ _ _ (nests_groups _ _ _ _ _ HG)), lsum_seq, Rmult_plus_distr_r, Rmult_1_l, <- sumn_scal_r. f_equal. apply sumn_ext. intros h Hh. apply P_exact, Hh.
      Qed.
      Lemma exact_scaled j : (j < J)%nat -> e j / s_ (group j) * (P_ (group j) / D_) = exact_probability J H group rho v j.
      Proof.
        intro Hj. assert (Hg := nests_group _ _ _ _ _ HG j Hj). assert (Ps := sum_pos _ Hg). assert (X1 := exp_pos (- r0)). assert (X2 := exp_pos (- r0 * d)).
        assert (S0 : 0 <= sumn H (powered_sum J group rho v)) by (apply sumn_nonneg; intros; left; apply exp_pos).
        rewrite (s_exact _ Hg), (P_exact _ Hg), D_exact. unfold e, exact_probability, exact_within, exact_group. replace (v j - r0) with (v j + - r0) by ring. rewrite exp_plus. field. repeat split; lra.
      Qed.

      (** Expected maximum utilities. *)
      Lemma P_bound h : (h < H)%nat -> P_ h <= INR (S J).
      Proof.
        intro Hh. assert (T2 := s_bounds h Hh). assert (T3 := s_pos h Hh). rewrite S_INR. assert (dd : 0 <= d <= 1) by (unfold d; lra). destruct (Rle_dec 0 (ln (s_ h))) as [T|T].
        - apply Rle_trans with (exp (ln (s_ h))); [|rewrite exp_ln; lra]. apply exp_le. assert (d * ln (s_ h) <= 1 * ln (s_ h)) by (apply Rmult_le_compat_r; lra). lra.
        - apply Rle_trans with 1; [|assert (T4 := pos_INR J); lra]. rewrite <- exp_0. apply exp_le. assert (0 <= d * - ln (s_ h)) by (apply Rmult_le_pos; lra). lra.
      Qed.
      Lemma D_log : - INR U <= ln D_ <= INR J + INR H.
      Proof.
        assert (X2 := exp_pos (- r0 * d)). assert (S0 : 0 <= lsum (leaves groups_tree) P_).
        { generalize (leaves groups_tree). intro l. clear. induction l as [|i l IH]; cbn [lsum]; [lra|assert (T := P_pos i); lra]. }
        assert (ln_le : forall a b, 0 < a -> a <= b -> ln a <= ln b) by (intros a b Ha [Hb| ->]; [left; apply ln_increasing; assumption|right; reflexivity]).
        assert (r0d : 0 <= r0 * d <= INR U) by (assert (dd : 0 <= d <= 1) by (unfold d; lra); split; [apply Rmult_le_pos; lra|]; assert (r0 * d <= r0 * 1) by (apply Rmult_le_compat_l; lra); lra).
        split.
        - apply Rle_trans with (ln (exp (- r0 * d))); [rewrite ln_exp; lra|]. apply ln_le; [exact X2|unfold D_; lra].
        - assert (P2 := pos_INR J). assert (P3 := pos_INR H). apply Rle_trans with (ln ((INR J + 1) * (INR H + 1))).
          + apply ln_le; [unfold D_; lra|]. unfold D_. assert (exp (- r0 * d) <= 1) by (rewrite <- exp_0; apply exp_le; lra).
            assert (lsum (leaves groups_tree) P_ <= lsum (leaves groups_tree) (fun _ => INR (S J))) by (apply lsum_le; intros h Hh; apply P_bound, groups_In, Hh).
            rewrite (lsum_perm _ _ (fun _ => INR (S J)) (nests_groups _ _ _ _ _ HG)), lsum_seq, sumn_const, S_INR in *. lra.
          + rewrite ln_mult by lra. assert (Q : forall n, 0 <= n -> ln (n + 1) <= n) by (intros n Hn; assert (T := exp_ineq1_le (ln (n + 1))); rewrite exp_ln in T by lra; lra).
            assert (T1 := Q (INR J) P2). assert (T2 := Q (INR H) P3). lra.
      Qed.
      Lemma surplus_near : exists x, nested_numerator A J yes u H group_tree groups_tree (fun _ => rho) several = Num x /\
        Rabs (x - exact_maximum J H group rho v) <= 64 * (INR U + INR J + INR H + 3) * eps.
      Proof.
        destruct basics as (Q1 & Q2 & P1 & P2 & P3 & R1 & R2 & R3). assert (HH : (0 < H)%nat).
        { rewrite <- groups_length. assert (T := leaves_pos groups_tree). destruct (leaves groups_tree); cbn in *; [lra|lia]. }
        unfold nested_numerator, nested_log_scale. rewrite (one_min rho H HH). change (rsub A (Num 1) (Num rho)) with (dampener A (fun _ => rho) 0). rewrite (proj1 (damp 0)), E0.
        destruct (den_near (surplus_weight A J u H (fun _ => rho) several)) as (D & ED & LD & CD).
        { intros h Hh. unfold surplus_weight. rewrite (one_min rho H HH).
          exact (scale_weight_one A N HR HE J H 1 u (fun _ => rho) several (fun _ _ _ _ _ => eq_refl) ltac:(clear - HN; nia) h h r0 Hh Hh E0). }
        unfold numerator. rewrite ED.
        destruct (damp 0) as (_ & Bd & Dd). unfold rmul at 1. cbn [fneg fmul].
        assert (LZ : - INR U <= - r0 * d' <= 0) by (assert (0 <= r0 * d') by (apply Rmult_le_pos; lra); assert (r0 * d' <= r0 * 1) by (apply Rmult_le_compat_l; lra); lra).
        destruct (round_within A N HR U (- r0 * d') ltac:(clear - HNU; lia)) as (Em & Bm & _); [lra|]. rewrite Em.
        set (m := rnd A (- r0 * d')) in *. assert (DR := rnd_error _ _ _ HA (- r0 * d')). fold m in DR.
        rewrite (Rabs_left1 (- r0 * d')) in DR by lra. assert (eps * - (- r0 * d') <= eps * INR U) by (apply Rmult_le_compat_l; lra).
        assert (X : Rabs (- r0 * d' - - r0 * d) <= INR U * (2 * eps)).
        { replace (- r0 * d' - - r0 * d) with (- (r0 * (d' - d))) by ring. rewrite Rabs_Ropp, Rabs_mult, (Rabs_pos_eq r0) by lra. apply Rmult_le_compat; [lra|apply Rabs_pos|lra|exact Dd]. }
        assert (DM : Rabs (m - - r0 * d) <= (3 * INR U + 1) * eps).
        { replace (m - - r0 * d) with ((m - - r0 * d') + (- r0 * d' - - r0 * d)) by ring. eapply Rle_trans; [apply Rabs_triang|]. lra. }
        assert (PD : 0 < D) by (assert (T := lo_pos); lra). assert (NL := near_ln _ _ _ CD). assert (DL := D_log).
        cbn [rlog]. destruct (Rlt_dec D 0); [lra|]. destruct (Req_EM_T D 0); [lra|].
        assert (K5s : K5 <= / 2) by (unfold K5, K4; lra).
        assert (A1 := Rle_abs (ln D - ln D_)). assert (A2 := Rle_abs (- (ln D - ln D_))). rewrite Rabs_Ropp in A2.
        assert (LM : Rabs (ln D) <= INR U + INR J + INR H + / 2) by (apply Rabs_le; lra).
        assert (D1 := HLA D PD). assert (eps * Rabs (ln D) <= eps * (INR U + INR J + INR H + / 2)) by (apply Rmult_le_compat_l; lra).
        assert (B1 := Rle_abs (Log A D - ln D)). assert (B2 := Rle_abs (- (Log A D - ln D))). rewrite Rabs_Ropp in B2.
        assert (LM1 := Rle_abs (ln D)). assert (LM2 := Rle_abs (- ln D)). rewrite Rabs_Ropp in LM2.
        assert (LA : Rabs (Log A D) <= INR U + INR J + INR H + 1) by (apply Rabs_le; lra).
        assert (I1 : INR (U + J + H + 1) = INR U + INR J + INR H + 1) by (rewrite !plus_INR; cbn [INR]; ring).
        assert (I2 : INR (2 * U + J + H + 3) = 2 * INR U + INR J + INR H + 3) by (rewrite !plus_INR, mult_INR; cbn [INR]; ring).
        assert (G1 := Rle_abs (Log A D)). assert (G2 := Rle_abs (- Log A D)). rewrite Rabs_Ropp in G2.
        destruct (round_within A N HR (U + J + H + 1) (Log A D) ltac:(clear - HNU; lia)) as (El & Bl & _); [lra|]. rewrite El.
        set (l := rnd A (Log A D)) in *. assert (D2 := rnd_error _ _ _ HA (Log A D)). fold l in D2.
        assert (eps * Rabs (Log A D) <= eps * (INR U + INR J + INR H + 1)) by (apply Rmult_le_compat_l; lra).
        unfold rsub, fsub. cbn [fneg fadd].
        destruct (round_within A N HR (2 * U + J + H + 3) (l + - m) HNU) as (Ex & _ & _); [lra|]. rewrite Ex. exists (rnd A (l + - m)). split; [reflexivity|].
        assert (D3 := rnd_error _ _ _ HA (l + - m)). assert (LLM : Rabs (l + - m) <= 2 * INR U + INR J + INR H + 1) by (apply Rabs_le; lra).
        assert (eps * Rabs (l + - m) <= eps * (2 * INR U + INR J + INR H + 1)) by (apply Rmult_le_compat_l; lra).
        assert (EX : exact_maximum J H group rho v = ln D_ - - r0 * d).
        { unfold exact_maximum. rewrite D_exact, ln_mult, ln_exp; [ring| |apply exp_pos]. assert (0 <= sumn H (powered_sum J group rho v)) by (apply sumn_nonneg; intros; left; apply exp_pos). lra. }
        rewrite EX. replace (rnd A (l + - m) - (ln D_ - - r0 * d)) with ((rnd A (l + - m) - (l + - m)) + ((l - Log A D) + ((Log A D - ln D) + ((ln D - ln D_) + - (m - - r0 * d))))) by ring.
        eapply Rle_trans; [apply Rabs_triang|]. eapply Rle_trans; [apply Rplus_le_compat_l, Rabs_triang|]. eapply Rle_trans; [apply Rplus_le_compat_l, Rplus_le_compat_l, Rabs_triang|].
        eapply Rle_trans; [apply Rplus_le_compat_l, Rplus_le_compat_l, Rplus_le_compat_l, Rabs_triang|]. rewrite Rabs_Ropp. unfold K5, K4 in *. lra.
      Qed.
    End Reduction.

    Lemma reduced : exists r0, reduction J u = Num r0 /\ 0 <= r0 <= INR U /\ (forall k, (k < J)%nat -> v k <= r0).
    Proof.
      destruct (reduction_spec J u num) as (r0 & E0 & P0 & M0 & O0). exists r0. split; [exact E0|]. split; [split; [exact P0|]|intros k Hk; exact (M0 k (v k) Hk eq_refl)].
      destruct O0 as [ -> |(j & Hj & Ej)]; [apply pos_INR|]. injection Ej as <-. apply Hv, Hj.
    Qed.
    Theorem probability_near j : (j < J)%nat -> exists p, nested_probability A J yes true u group group_tree groups_tree (fun _ => rho) several j = Num p /\
      Rabs (p - exact_probability J H group rho v j) <= 64 * (INR U + INR J + INR H + 3) * eps.
    Proof.
      intro Hj. destruct reduced as (r0 & E0 & B0 & M0). rewrite <- (exact_scaled r0 B0 M0 j Hj). exact (probability_scaled r0 E0 B0 M0 j Hj).
    Qed.
    Theorem surplus_accuracy : exists x, nested_numerator A J yes u H group_tree groups_tree (fun _ => rho) several = Num x /\
      Rabs (x - exact_maximum J H group rho v) <= 64 * (INR U + INR J + INR H + 3) * eps.
    Proof. destruct reduced as (r0 & E0 & B0 & M0). exact (surplus_near r0 E0 B0 M0). Qed.
  End Market.

  (** From utilities. *)
  Section Sensitivity.
    Variables (J H : nat) (group : nat -> nat) (rho k : R) (v v' : nat -> R).
    Hypothesis Hrho : 0 <= rho < 1.
    Hypothesis Hk : 0 <= k.
    Hypothesis Hg : forall j, (j < J)%nat -> (group j < H)%nat.
    Hypothesis HD : forall j, (j < J)%nat -> Rabs (v' j - v j) <= k.

    Lemma sums_near h : (0 < inclusive_sum J group v h /\ near k (inclusive_sum J group v' h) (inclusive_sum J group v h)) \/
      (inclusive_sum J group v' h = 0 /\ inclusive_sum J group v h = 0).
    Proof.
      unfold inclusive_sum. revert HD. clear - Hk. induction J as [|n IH]; intro HD; [right; split; reflexivity|]. cbn [sumn].
      specialize (IH (fun j Hj => HD j (Nat.lt_lt_succ_r _ _ Hj))). assert (T := near_exp k _ _ (HD n (Nat.lt_succ_diag_r n))).
      destruct (Nat.eqb (group n) h).
      - left. destruct IH as [(P & C)|(E1 & E2)].
        + split; [assert (Q := exp_pos (v n)); lra|apply near_plus; assumption].
        + rewrite E1, E2, !Rplus_0_l. split; [apply exp_pos|exact T].
      - rewrite !Rplus_0_r. exact IH.
    Qed.
    Lemma powers_near h : near k (powered_sum J group rho v' h) (powered_sum J group rho v h).
    Proof.
      unfold powered_sum. apply near_exp. destruct (sums_near h) as [(P & C)|(E1 & E2)].
      - assert (L := near_ln _ _ _ C). replace ((1 - rho) * ln (inclusive_sum J group v' h) - (1 - rho) * ln (inclusive_sum J group v h)) with ((1 - rho) * (ln (inclusive_sum J group v' h) - ln (inclusive_sum J group v h))) by ring.
        rewrite Rabs_mult, Rabs_pos_eq by lra. assert (Q := Rabs_pos (ln (inclusive_sum J group v' h) - ln (inclusive_sum J group v h))).
        assert ((1 - rho) * Rabs (ln (inclusive_sum J group v' h) - ln (inclusive_sum J group v h)) <= 1 * Rabs (ln (inclusive_sum J group v' h) - ln (inclusive_sum J group v h))) by (apply Rmult_le_compat_r; lra). lra.
      - rewrite E1, E2, Rminus_diag_eq, Rabs_R0 by reflexivity. exact Hk.
    Qed.
    Lemma total_near n : near k (1 + sumn n (powered_sum J group rho v')) (1 + sumn n (powered_sum J group rho v)).
    Proof.
      induction n as [|n IH]; cbn [sumn].
      - rewrite Rplus_0_r. eapply near_weak; [|apply near_refl; lra]. lra.
      - rewrite <- !Rplus_assoc. apply near_plus; [exact IH|apply powers_near].
    Qed.
    Lemma near_maximum : Rabs (exact_maximum J H group rho v' - exact_maximum J H group rho v) <= k.
    Proof. unfold exact_maximum. apply near_ln, total_near. Qed.
    Lemma exact_unit j : (j < J)%nat -> 0 < exact_probability J H group rho v j <= 1.
    Proof.
      intro Hj. assert (Q : exp (v j) <= inclusive_sum J group v (group j)).
      { unfold inclusive_sum. eapply Rle_trans; [|apply (sumn_ge_term J (fun k => if Nat.eqb (group k) (group j) then exp (v k) else 0) j); [|exact Hj]].
        - cbv beta. rewrite Nat.eqb_refl. lra.
        - intros i Hi. cbv beta. destruct (Nat.eqb (group i) (group j)); [left; apply exp_pos|lra]. }
      assert (E := exp_pos (v j)).
      assert (P : powered_sum J group rho v (group j) <= sumn H (powered_sum J group rho v)) by (apply (sumn_ge_term H); [intros; left; apply exp_pos|apply Hg, Hj]).
      assert (E2 : 0 < powered_sum J group rho v (group j)) by apply exp_pos.
      unfold exact_probability, exact_within, exact_group.
      assert (D1 : 0 < exp (v j) / inclusive_sum J group v (group j) <= 1) by (split; [apply Rdiv_lt_0_compat; lra|apply Rmult_le_reg_r with (inclusive_sum J group v (group j)); [lra|unfold Rdiv; rewrite Rmult_assoc, Rinv_l by lra; lra]]).
      assert (D2 : 0 < powered_sum J group rho v (group j) / (1 + sumn H (powered_sum J group rho v)) <= 1) by (split; [apply Rdiv_lt_0_compat; lra|apply Rmult_le_reg_r with (1 + sumn H (powered_sum J group rho v)); [lra|unfold Rdiv; rewrite Rmult_assoc, Rinv_l by lra; lra]]).
      split; [apply Rmult_lt_0_compat; lra|]. match goal with |- ?x * ?y <= 1 => assert (x * y <= 1 * 1) by (apply Rmult_le_compat; lra); lra end.
    Qed.
    Lemma near_probability j : (j < J)%nat -> 4 * k <= / 2 -> Rabs (exact_probability J H group rho v' j - exact_probability J H group rho v j) <= 8 * k.
    Proof.
      intros Hj Hs. assert (U := exact_unit j Hj). assert (C : near (4 * k) (exact_probability J H group rho v' j) (exact_probability J H group rho v j)).
      { unfold exact_probability, exact_within, exact_group. replace (4 * k) with ((k + k) + (k + k)) by ring.
        apply near_mult; apply near_div; [apply near_exp, HD, Hj| |apply powers_near|apply total_near].
        destruct (sums_near (group j)) as [(P & C)|(E1 & E2)]; [exact C|]. exfalso.
        assert (Q : exp (v j) <= inclusive_sum J group v (group j)); [|assert (E := exp_pos (v j)); lra].
        unfold inclusive_sum. eapply Rle_trans; [|apply (sumn_ge_term J (fun k => if Nat.eqb (group k) (group j) then exp (v k) else 0) j); [|exact Hj]].
        - cbv beta. rewrite Nat.eqb_refl. lra.
        - intros i Hi. cbv beta. destruct (Nat.eqb (group i) (group j)); [left; apply exp_pos|lra]. }
      assert (D := near_abs (4 * k) _ _ ltac:(lra) C). assert (2 * (4 * k) * exact_probability J H group rho v j <= 2 * (4 * k) * 1) by (apply Rmult_le_compat_l; lra). lra.
    Qed.
  End Sensitivity.

  Section Utilities.
    Variables (J H U : nat) (delta mu : nat -> R) (group : nat -> nat) (group_tree : nat -> tree) (groups_tree : tree) (rho : R) (several : bool).
    Hypothesis HG : nests J H group group_tree groups_tree.
    Hypothesis Hrho : 0 <= rho < 1.
    Hypothesis Hv : forall k, (k < J)%nat -> Rabs (delta k + mu k) <= INR U * (1 - rho).
    Hypothesis HN : (4 * S J * S H <= N)%nat.
    Hypothesis HNU : (2 * U + J + H + 5 <= N)%nat.
    Hypothesis Heta : eta <= eps * exp (- (2 * INR U + INR J + 5)).
    Hypothesis Hetar : eta <= eps * (1 - rho).
    Hypothesis Hsize : 160 * (INR U + INR J + INR H + 3) * eps <= 1.
    Let v : nat -> R := divided rho (fun k => delta k + mu k).
    Let scaled (k : nat) : flt := rdiv A (radd A (Num (delta k)) (Num (mu k))) (rsub A (Num 1) (Num rho)).
    Let k0 := 12 * (INR U + 1) * eps.

    Lemma scaled_error k : (k < J)%nat -> exists v', scaled k = Num v' /\ Rabs (v' - v k) <= k0 /\ - INR (S U) <= v' <= INR (S U).
    Proof.
      intro Hk. assert (Q1 := eps_small _ _ _ HA). assert (Q2 := eta_small _ _ _ HA). assert (P1 := pos_INR U). assert (P2 := pos_INR J). assert (P3 := pos_INR H).
      assert (R1 : 0 <= INR U * eps) by (apply Rmult_le_pos; lra). assert (R2 : 0 <= INR J * eps) by (apply Rmult_le_pos; lra). assert (R3 : 0 <= INR H * eps) by (apply Rmult_le_pos; lra).
      set (t := delta k + mu k). set (d := 1 - rho). assert (Pd : 0 < d <= 1) by (unfold d; lra). assert (Ht := Hv k Hk). fold t d in Ht.
      assert (HtU : Rabs t <= INR U) by (assert (INR U * d <= INR U * 1) by (apply Rmult_le_compat_l; lra); lra).
      assert (T1 := Rle_abs t). assert (T2 := Rle_abs (- t)). rewrite Rabs_Ropp in T2.
      unfold scaled, radd, rsub, fsub. cbn [fneg fadd]. fold t. change (1 + - rho) with d.
      destruct (round_within A N HR U t ltac:(clear - HNU; lia)) as (Et & Bt & _); [lra|]. rewrite Et. set (a := rnd A t) in *.
      destruct (round_upto A N HR 1 d ltac:(clear - HNU; lia)) as (Ed & Bd & _); [cbn [INR]; lra|]. rewrite Ed. set (d' := rnd A d) in *.
      assert (Da := rnd_error _ _ _ HA t). fold a in Da. assert (Dd := rnd_error _ _ _ HA d). fold d' in Dd. rewrite (Rabs_pos_eq d) in Dd by lra. change (1 - rho) with d in Hetar.
      assert (X1 := Rle_abs (d' - d)). assert (X2 := Rle_abs (- (d' - d))). rewrite Rabs_Ropp in X2. assert (eps * d <= / 160 * d) by (apply Rmult_le_compat_r; lra).
      assert (Hd' : / 2 * d <= d') by lra. assert (Pd' : 0 < d') by lra.
      unfold rdiv. cbn [fdiv]. destruct (Req_EM_T d' 0); [lra|].
      assert (I1 : / d' <= 2 * / d).
      { replace (2 * / d) with (/ (/ 2 * d)) by (field; lra). apply Rinv_le_contravar; lra. }
      assert (Pi : 0 < / d) by (apply Rinv_0_lt_compat; lra). assert (Pi' : 0 < / d') by (apply Rinv_0_lt_compat; lra).
      assert (V1 : Rabs t * / d <= INR U) by (apply Rmult_le_reg_r with d; [lra|]; rewrite Rmult_assoc, Rinv_l by lra; lra).
      assert (ED : Rabs (a / d' - t / d) <= 2 * eps * INR U + 2 * eps + INR U * (4 * eps)).
      { replace (a / d' - t / d) with ((a - t) * / d' + (t * / d) * ((d - d') * / d')) by (field; split; lra). eapply Rle_trans; [apply Rabs_triang|]. apply Rplus_le_compat.
        - rewrite Rabs_mult, (Rabs_pos_eq (/ d')) by lra. apply Rle_trans with ((eps * Rabs t + eta) * (2 * / d)); [apply Rmult_le_compat; try lra; apply Rabs_pos|].
          replace ((eps * Rabs t + eta) * (2 * / d)) with (2 * eps * (Rabs t * / d) + 2 * (eta * / d)) by ring. apply Rplus_le_compat; [apply Rmult_le_compat_l; lra|].
          apply Rmult_le_compat_l; [lra|]. apply Rmult_le_reg_r with d; [lra|]. rewrite Rmult_assoc, Rinv_l by lra. lra.
        - rewrite !Rabs_mult, (Rabs_pos_eq (/ d')), (Rabs_pos_eq (/ d)) by lra. apply Rmult_le_compat; [apply Rmult_le_pos; [apply Rabs_pos|lra]|apply Rmult_le_pos; [apply Rabs_pos|lra]|exact V1|].
          rewrite (Rabs_minus_sym d d'). apply Rle_trans with ((2 * eps * d) * (2 * / d)); [apply Rmult_le_compat; try lra; apply Rabs_pos|]. right. field. lra. }
      assert (VU : Rabs (t / d) <= INR U) by (unfold Rdiv; rewrite Rabs_mult, (Rabs_pos_eq (/ d)) by lra; exact V1).
      assert (Y1 := Rle_abs (a / d' - t / d)). assert (Y2 := Rle_abs (- (a / d' - t / d))). rewrite Rabs_Ropp in Y2.
      assert (Z1 := Rle_abs (t / d)). assert (Z2 := Rle_abs (- (t / d))). rewrite Rabs_Ropp in Z2.
      destruct (round_within A N HR (S U) (a / d') ltac:(clear - HNU; lia)) as (Eq & Bq & _); [rewrite S_INR; lra|]. rewrite Eq. exists (rnd A (a / d')). split; [reflexivity|]. split; [|exact Bq].
      assert (DR := rnd_error _ _ _ HA (a / d')). assert (Rabs (a / d') <= INR U + 1) by (apply Rabs_le; lra). assert (eps * Rabs (a / d') <= eps * (INR U + 1)) by (apply Rmult_le_compat_l; lra).
      change (v k) with (t / d). replace (rnd A (a / d') - t / d) with ((rnd A (a / d') - a / d') + (a / d' - t / d)) by ring. eapply Rle_trans; [apply Rabs_triang|]. unfold k0. lra.
    Qed.
    Let v' (k : nat) : R := match scaled k with Num r => r | _ => 0 end.
    Lemma v'_spec k : (k < J)%nat -> scaled k = Num (v' k) /\ Rabs (v' k - v k) <= k0 /\ - INR (S U) <= v' k <= INR (S U).
    Proof. intro Hk. destruct (scaled_error k Hk) as (x & E & B). unfold v'. rewrite E. split; [reflexivity|exact B]. Qed.

    Lemma sizes : 0 <= k0 /\ 4 * k0 <= / 2 /\ eta <= eps * exp (- (2 * INR (S U) + INR J + 3)) /\ 64 * (INR (S U) + INR J + INR H + 3) * eps <= 1 /\
      8 * k0 + 64 * (INR (S U) + INR J + INR H + 3) * eps <= 160 * (INR U + INR J + INR H + 3) * eps.
    Proof.
      assert (Q1 := eps_small _ _ _ HA). assert (Q2 := eta_small _ _ _ HA). assert (P1 := pos_INR U). assert (P2 := pos_INR J). assert (P3 := pos_INR H).
      assert (R1 : 0 <= INR U * eps) by (apply Rmult_le_pos; lra). assert (R2 : 0 <= INR J * eps) by (apply Rmult_le_pos; lra). assert (R3 : 0 <= INR H * eps) by (apply Rmult_le_pos; lra).
      unfold k0. rewrite S_INR. replace (2 * (INR U + 1) + INR J + 3) with (2 * INR U + INR J + 5) by ring. repeat split; try lra.
    Qed.

    Lemma reduction_ext (x y : nat -> flt) n : (forall k, (k < n)%nat -> x k = y k) -> reduction n x = reduction n y.
    Proof.
      intro E. unfold reduction. assert (M : maximum n x = maximum n y); [|rewrite M; reflexivity].
      revert E. induction n as [|n IH]; intro E; [reflexivity|]. cbn [maximum]. rewrite IH, (E n); [reflexivity|lia|intros; apply E; lia].
    Qed.
    Lemma rsum_ext t (x y : nat -> flt) : (forall k, In k (leaves t) -> x k = y k) -> rsum A t x = rsum A t y.
    Proof.
      induction t as [i|l IHl r IHr]; cbn [leaves rsum]; intro E; [apply E; left; reflexivity|]. rewrite IHl, IHr; [reflexivity| |]; intros k Hk; apply E, in_or_app; auto.
    Qed.
    Let yes : nat -> bool := fun _ => true.
    Lemma exps k : (k < J)%nat -> exp_utility A J yes scaled true k = exp_utility A J yes (fun k => Num (v' k)) true k.
    Proof.
      intro Hk. unfold exp_utility. rewrite (reduction_ext scaled (fun k => Num (v' k)) J (fun i Hi => proj1 (v'_spec i Hi))), (proj1 (v'_spec k Hk)). reflexivity.
    Qed.
    Lemma inclusives h : (h < H)%nat -> inclusive A J yes scaled group_tree h = inclusive A J yes (fun k => Num (v' k)) group_tree h.
    Proof. intro Hh. unfold inclusive. apply rsum_ext. intros k Hk. apply (group_In J H group group_tree groups_tree HG h k Hh) in Hk. apply exps, Hk. Qed.
    Lemma weighteds h : (h < H)%nat -> weighted_inclusive A J yes scaled group_tree (fun _ => rho) h = weighted_inclusive A J yes (fun k => Num (v' k)) group_tree (fun _ => rho) h.
    Proof. intro Hh. unfold weighted_inclusive. rewrite (inclusives h Hh). reflexivity. Qed.
    Lemma all_groups h : In h (leaves groups_tree) -> (h < H)%nat.
    Proof. intro I. apply (Permutation_in _ (nests_groups _ _ _ _ _ HG)), in_seq in I. lia. Qed.

    Theorem choice_near j : (j < J)%nat -> exists p, nested_probability A J yes true scaled group group_tree groups_tree (fun _ => rho) several j = Num p /\
      Rabs (p - exact_probability J H group rho v j) <= 160 * (INR U + INR J + INR H + 3) * eps.
    Proof.
      intro Hj. destruct sizes as (S1 & S2 & S3 & S4 & S5). assert (RE := reduction_ext scaled (fun k => Num (v' k)) J (fun i Hi => proj1 (v'_spec i Hi))). assert (Hg := nests_group _ _ _ _ _ HG j Hj).
      destruct (probability_near J H (S U) v' group group_tree groups_tree rho several HG ltac:(lra) (fun k Hk => proj2 (proj2 (v'_spec k Hk))) HN ltac:(clear - HNU; lia) S3 S4 j Hj) as (p & Ep & Dp).
      exists p. split.
      - rewrite <- Ep. unfold nested_probability. f_equal.
        + unfold conditional. fold yes. rewrite (exps j Hj), (inclusives _ Hg). reflexivity.
        + unfold marginal. fold yes. rewrite (weighteds _ Hg). unfold nested_scale. rewrite RE. f_equal. f_equal. apply rsum_ext. intros h Hh. apply all_groups in Hh. rewrite (weighteds h Hh). unfold scale_weight. rewrite RE. reflexivity.
      - assert (D := near_probability J H group rho k0 v v' Hrho S1 (nests_group _ _ _ _ _ HG) (fun k Hk => proj1 (proj2 (v'_spec k Hk))) j Hj S2).
        replace (p - exact_probability J H group rho v j) with ((p - exact_probability J H group rho v' j) + (exact_probability J H group rho v' j - exact_probability J H group rho v j)) by ring.
        eapply Rle_trans; [apply Rabs_triang|]. lra.
    Qed.
    Theorem maximum_near : exists x, nested_numerator A J yes scaled H group_tree groups_tree (fun _ => rho) several = Num x /\
      Rabs (x - exact_maximum J H group rho v) <= 160 * (INR U + INR J + INR H + 3) * eps.
    Proof.
      destruct sizes as (S1 & S2 & S3 & S4 & S5). assert (RE := reduction_ext scaled (fun k => Num (v' k)) J (fun i Hi => proj1 (v'_spec i Hi))).
      destruct (surplus_accuracy J H (S U) v' group group_tree groups_tree rho several HG ltac:(lra) (fun k Hk => proj2 (proj2 (v'_spec k Hk))) HN ltac:(clear - HNU; lia) S3 S4) as (p & Ep & Dp).
      exists p. split.
      - rewrite <- Ep. unfold nested_numerator, nested_log_scale. fold yes. rewrite RE. f_equal. apply rsum_ext. intros h Hh. apply all_groups in Hh. rewrite (weighteds h Hh). unfold surplus_weight. rewrite RE. reflexivity.
      - assert (D := near_maximum J H group rho k0 v v' Hrho S1 (fun k Hk => proj1 (proj2 (v'_spec k Hk)))).
        replace (p - exact_maximum J H group rho v) with ((p - exact_maximum J H group rho v') + (exact_maximum J H group rho v' - exact_maximum J H group rho v)) by ring.
        eapply Rle_trans; [apply Rabs_triang|]. lra.
    Qed.
  End Utilities.
End Near.

(** Exact probabilities and that of the outside option add up to one if no group is empty. *)
Lemma exact_total J H group rho v : 0 <= rho < 1 -> (forall j, (j < J)%nat -> (group j < H)%nat) ->
  (forall h, (h < H)%nat -> exists j, (j < J)%nat /\ group j = h) ->
  sumn J (exact_probability J H group rho v) + / (1 + sumn H (powered_sum J group rho v)) = 1.
Proof.
  intros Hrho Hg Hne. set (T := 1 + sumn H (powered_sum J group rho v)).
  assert (PT : 0 < T) by (unfold T; assert (0 <= sumn H (powered_sum J group rho v)) by (apply sumn_nonneg; intros; left; apply exp_pos); lra).
  assert (E : sumn J (exact_probability J H group rho v) = sumn H (fun h => powered_sum J group rho v h * / T)).
  { rewrite (sumn_ext J _ (fun j => sumn H (fun h => if Nat.eqb h (group j) then exp (v j) / inclusive_sum J group v h * (powered_sum J group rho v h / T) else 0)))
      by (intros j Hj; rewrite (sumn_delta H (group j) (fun h => exp (v j) / inclusive_sum J group v h * (powered_sum J group rho v h / T)) (Hg j Hj)); reflexivity).
    rewrite sumn_swap. apply sumn_ext. intros h Hh. destruct (Hne h Hh) as (j & Hj & Ej).
    assert (P : 0 < inclusive_sum J group v h).
    { unfold inclusive_sum. apply Rlt_le_trans with (exp (v j)); [apply exp_pos|]. eapply Rle_trans; [|apply (sumn_ge_term J (fun k => if Nat.eqb (group k) h then exp (v k) else 0) j); [|exact Hj]].
      - cbv beta. rewrite Ej, Nat.eqb_refl. lra.
      - intros i Hi. cbv beta. destruct (Nat.eqb (group i) h); [left; apply exp_pos|lra]. }
    rewrite (sumn_ext J _ (fun k => (if Nat.eqb (group k) h then exp (v k) else 0) * (/ inclusive_sum J group v h * (powered_sum J group rho v h / T))))
      by (intros k Hk; rewrite (Nat.eqb_sym h); destruct (Nat.eqb (group k) h); unfold Rdiv; ring).
    rewrite sumn_scal_r. fold (inclusive_sum J group v h). unfold Rdiv. field. split; lra. }
  rewrite E, sumn_scal_r. unfold T in *. field. lra.
Qed.
