(** Nested choice probabilities in floating point arithmetic. *)
From Coq Require Import Reals Lra Lia List Bool Arith Sorting.Permutation.
From Verif Require Import FltModel IterModel RoundModel RoundSpec RoundProofs.
Import ListNotations.
Local Open Scope R_scope.

Section Nested.
  Variables (A : arithmetic) (N : nat).
  Hypothesis HR : rounds A N.
  Hypothesis HE : exponential A.
  Hypothesis HL : logarithm A.
  Variables (J H L B : nat) (u : nat -> flt) (group : nat -> nat) (group_tree : nat -> tree) (groups_tree : tree) (group_rho : nat -> R) (several : bool).
  Hypothesis Hu : forall j, (j < J)%nat -> exists r, u j = Num r.
  Hypothesis HG : nests J H group group_tree groups_tree.
  Hypothesis Hrho : forall h, (h < H)%nat -> 0 <= group_rho h <= 1.
  Hypothesis Heq : several = true -> forall h h', (h < H)%nat -> (h' < H)%nat -> group_rho h = group_rho h'.
  Hypothesis HLJ : Log A (INR J) <= INR L.
  Hypothesis HBL : Exp A (INR L) <= INR B.
  Hypothesis HN : (S (H * B) <= N)%nat.
  Hypothesis HJ : (J <= N)%nat.
  Hypothesis HLN : (L <= N)%nat.

  Let yes : nat -> bool := fun _ => true.

  Lemma N_one : (1 <= N)%nat.
  Proof using HN. clear - HN. lia. Qed.

  Lemma B_one : 1 <= INR B.
  Proof using HE HBL. assert (Q := exp_mono _ HE 0 (INR L) (pos_INR L)). rewrite (exp_zero _ HE) in Q. lra. Qed.
  Lemma B_nat : (1 <= B)%nat.
  Proof using HE HBL. apply INR_le. cbn [INR]. exact B_one. Qed.
  Lemma B_le : (0 < H)%nat -> (B <= N)%nat.
  Proof using HN. clear - HN. intro. nia. Qed.

  Lemma dampener_upto h : (h < H)%nat -> exists d, upto A 1 (dampener A group_rho h) d.
  Proof using HR HN Hrho.
    intro Hh. destruct (Hrho h Hh). unfold dampener, rsub, fsub. cbn [fneg fadd]. eexists. apply (round_upto A N HR); [exact N_one|]. cbn [INR]. lra.
  Qed.

  Lemma group_In h j : (h < H)%nat -> (In j (leaves (group_tree h)) <-> (j < J)%nat /\ group j = h).
  Proof using HG.
    intro Hh. assert (P := nests_add _ _ _ _ _ HG h Hh). clear - P. split.
    - intro I. apply (Permutation_in _ P), filter_In in I. destruct I as [I E]. apply in_seq in I. apply Nat.eqb_eq in E. split; [lia|exact E].
    - intros [I E]. apply (Permutation_in _ (Permutation_sym P)), filter_In. split; [apply in_seq; lia|apply Nat.eqb_eq, E].
  Qed.
  Lemma group_length h : (h < H)%nat -> (List.length (leaves (group_tree h)) <= J)%nat.
  Proof using HG.
    intro Hh. rewrite (Permutation_length (nests_add _ _ _ _ _ HG h Hh)). rewrite <- (seq_length J 0) at 2. generalize (seq 0 J). clear.
    induction l as [|a l IH]; cbn; [lia|]. destruct (Nat.eqb (group a) h); cbn; lia.
  Qed.

  Lemma inclusive_upto h : (h < H)%nat -> exists s, upto A J (inclusive A J yes u group_tree h) s /\
    forall j r, (j < J)%nat -> group j = h -> exp_utility A J yes u true j = Num r -> r <= s.
  Proof using HR HE HN HJ Hu HG.
    intro Hh. assert (HN1 := N_one). assert (G := group_length h Hh). destruct (rsum_upto A N HR (group_tree h) (exp_utility A J yes u true) 1) as (s & (Es & Hs & Rs) & Ls).
    { rewrite Nat.mul_1_l. eapply Nat.le_trans; [exact G|exact HJ]. }
    { intros i Hi. apply (exp_utility_upto A N HR HE J u Hu); [exact HN1|]. apply (group_In h i Hh), Hi. }
    exists s. split.
    - split; [exact Es|]. split; [|exact Rs]. rewrite Nat.mul_1_l in Hs. apply le_INR in G. lra.
    - intros j r Hj Hg Er. apply (Ls j); [|exact Er]. apply (group_In h j Hh). auto.
  Qed.

  Lemma rmul_nonpos x d : x <= 0 -> 0 <= d -> rmul A (Num x) (Num d) = NInf \/ exists r, rmul A (Num x) (Num d) = Num r /\ r <= 0.
  Proof using HR.
    intros Hx Hd. unfold rmul. cbn [fmul]. destruct (round_nonpos A N HR (x * d)) as [E|[E Q]].
    - assert (0 <= (- x) * d) by (apply Rmult_le_pos; lra). lra.
    - left. exact E.
    - right. eexists. split; [exact E|exact Q].
  Qed.
  Lemma finite_upto b x r : upto A b x r -> finite_or_zero x = x.
  Proof using. intros (-> & _). reflexivity. Qed.
  Lemma zero_upto b : upto A b (Num 0) 0.
  Proof using HR. split; [reflexivity|]. split; [|apply (rnd_zero A N HR)]. assert (Q := pos_INR b). lra. Qed.
  Lemma upto_mono b b' x r : (b <= b')%nat -> upto A b x r -> upto A b' x r.
  Proof using. intros Hb (E & Q & I). split; [exact E|]. split; [|exact I]. apply le_INR in Hb. lra. Qed.

  Lemma weighted_upto h : (h < H)%nat -> exists w, upto A B (weighted_inclusive A J yes u group_tree group_rho h) w /\
    forall s, inclusive A J yes u group_tree h = Num s -> 1 <= s -> 1 <= w.
  Proof using HR HE HL HN HJ HLN Hu HG Hrho HLJ HBL.
    intro Hh. assert (HN1 := N_one). assert (HB1 := B_nat). assert (HBN := B_le ltac:(clear - Hh; lia)).
    destruct (inclusive_upto h Hh) as (s & (Es & Hs & Rs) & _). destruct (dampener_upto h Hh) as (d & Ed & Hd & Rd).
    unfold weighted_inclusive. rewrite Es, Ed. cbn [rlog]. cbn [INR] in Hd.
    assert (small : forall x, x = NInf \/ x = NaN \/ (exists r, x = Num r /\ r <= 0) -> s < 1 ->
      exists w, upto A B (finite_or_zero (rexp A x)) w /\ forall s0, Num s = Num s0 -> 1 <= s0 -> 1 <= w).
    { intros x Hx Hs1. assert (K : x = NaN \/ (x = NInf \/ exists r, x = Num r /\ r <= 0)) by tauto. destruct K as [->|K].
      - exists 0. split; [exact (zero_upto B)|]. intros s0 E. injection E as <-. lra.
      - destruct (rexp_nonpos A N HR HE x HN1 K) as (w & Hw). exists w. split; [|intros s0 E; injection E as <-; lra].
        rewrite (finite_upto 1 _ w Hw). exact (upto_mono 1 B _ w HB1 Hw). }
    destruct (Rlt_dec s 0); [lra|]. destruct (Rlt_dec s 1) as [S1|S1].
    - apply small; [|exact S1]. destruct (Req_EM_T s 0) as [Z|Z].
      + unfold rmul. cbn [fmul]. unfold finf. destruct (Rlt_dec 0 (- d)); [lra|]. destruct (Rlt_dec (- d) 0); [left; reflexivity|right; left; reflexivity].
      + assert (QL : Log A s <= 0) by (rewrite <- (log_one _ HL); apply (log_mono _ HL); lra).
        destruct (round_nonpos A N HR _ QL) as [->|[-> Q]].
        * unfold rmul. cbn [fmul]. unfold finf. destruct (Rlt_dec 0 (- d)); [lra|]. destruct (Rlt_dec (- d) 0); [left; reflexivity|right; left; reflexivity].
        * destruct (rmul_nonpos _ d Q ltac:(lra)) as [->|Q']; [left; reflexivity|right; right; exact Q'].
    - destruct (Req_EM_T s 0) as [Z|_]; [lra|].
      assert (Q0 : 0 <= Log A s) by (rewrite <- (log_one _ HL); apply (log_mono _ HL); lra).
      assert (Q1 : Log A s <= INR L) by (eapply Rle_trans; [apply (log_mono _ HL); [lra|apply (proj2 Hs)]|exact HLJ]).
      destruct (round_upto A N HR L (Log A s) HLN (conj Q0 Q1)) as (El & Hl & _). rewrite El.
      set (l := rnd A (Log A s)) in *. unfold rmul. cbn [fmul].
      assert (P0 : 0 <= l * d) by (apply Rmult_le_pos; lra).
      assert (P1 : l * d <= INR L) by (assert (l * d <= l * 1) by (apply Rmult_le_compat_l; lra); lra).
      destruct (round_upto A N HR L (l * d) HLN (conj P0 P1)) as (Em & Hm & _). rewrite Em. cbn [rexp].
      assert (X0 := exp_mono _ HE _ _ (proj1 Hm)). rewrite (exp_zero _ HE) in X0. assert (X1 := exp_mono _ HE _ _ (proj2 Hm)).
      assert (Hw := round_upto A N HR B (Exp A (rnd A (l * d))) HBN ltac:(lra)).
      eexists. split; [rewrite (finite_upto B _ _ Hw); exact Hw|]. intros _ _ _.
      rewrite <- (rounds_nat _ _ HR 1%nat HN1 : rnd A 1 = 1). apply (rounds_mono _ _ HR). exact X0.
  Qed.

  Lemma conditional_upto j : (j < J)%nat -> exists r, upto A 1 (conditional A J yes u group group_tree j) r.
  Proof using HR HE HN HJ Hu HG.
    intro Hj. assert (HN1 := N_one). destruct (inclusive_upto (group j) (nests_group _ _ _ _ _ HG j Hj)) as (s & (Es & Hs & Rs) & Ls).
    destruct (exp_utility_upto A N HR HE J u Hu yes j HN1 Hj) as (a & Ha). assert (Le := Ls j a Hj eq_refl (proj1 Ha)).
    unfold conditional. rewrite Es. destruct (Req_dec s 0) as [Z|Z].
    - exists 0. destruct Ha as (-> & Ha & _). unfold rdiv. cbn [fdiv]. destruct (Req_EM_T s 0) as [_|N0]; [|contradiction (N0 Z)]. unfold finf.
      destruct (Rlt_dec 0 a); [lra|]. destruct (Rlt_dec a 0); [lra|]. exact (zero_upto 1).
    - destruct (rdiv_unit A N HR (exp_utility A J yes u true j) (Num s) a s (or_introl Ha) eq_refl ltac:(lra) Le HN1) as (r & Hr).
      exists r. rewrite (finite_upto 1 _ r Hr). exact Hr.
  Qed.

  Lemma scale_weight_one h h' r0 : (h < H)%nat -> (h' < H)%nat -> reduction J u = Num r0 -> scale_weight A J u group_rho several h h' = Num 1.
  Proof using HR HE HN Heq.
    intros Hh Hh' E0. assert (HN1 := N_one). unfold scale_weight. destruct several; [|reflexivity]. rewrite (Heq eq_refl h h' Hh Hh'), E0.
    assert (Z : round A (Num 0) = Num 0).
    { destruct (round_upto A N HR 0 0 (Nat.le_0_l N) ltac:(cbn; lra)) as (E & _). rewrite E, (rnd_zero A N HR). reflexivity. }
    unfold rsub, fsub, rmul. cbn [fneg fadd]. rewrite Rplus_opp_r, Z. cbn [fmul]. rewrite Rmult_0_r, Z. apply (rexp_zero A N HR HE), HN1.
  Qed.

  Lemma rsum_ext t x y : (forall i, In i (leaves t) -> x i = y i) -> rsum A t x = rsum A t y.
  Proof using.
    induction t as [i|l IHl r IHr]; cbn [leaves rsum]; intro E; [apply E; left; reflexivity|].
    rewrite IHl, IHr by (intros i Hi; apply E, in_or_app; auto). reflexivity.
  Qed.

  Lemma marginal_upto h : (h < H)%nat -> exists r, upto A 1 (marginal A J yes true u group_tree groups_tree group_rho several h) r.
  Proof using HR HE HL HN HJ HLN Hu HG Hrho Heq HLJ HBL.
    intro Hh. assert (HN1 := N_one). destruct (reduction_spec J u Hu) as (r0 & E0 & H0 & _ & HT).
    set (w := weighted_inclusive A J yes u group_tree group_rho).
    assert (HT' := adds_In groups_tree H (nests_groups _ _ _ _ _ HG)).
    assert (E : rsum A groups_tree (fun h' => rmul A (scale_weight A J u group_rho several h h') (w h')) = rsum A groups_tree w).
    { apply rsum_ext. intros h' Hi. apply HT' in Hi. rewrite (scale_weight_one h h' r0 Hh Hi E0).
      destruct (weighted_upto h' Hi) as (v & (Ev & Hv & Rv) & _). unfold w. rewrite Ev. unfold rmul. cbn [fmul]. rewrite Rmult_1_l.
      destruct (round_upto A N HR B v (B_le ltac:(clear - Hh; lia)) Hv) as (E & _). rewrite E, Rv. reflexivity. }
    unfold marginal. fold w. rewrite E.
    destruct (rsum_upto A N HR groups_tree w B) as (s & (Es & Hs & Rs) & Ls).
    { rewrite (adds_length groups_tree H (nests_groups _ _ _ _ _ HG)), Nat.mul_comm. clear - HN. lia. }
    { intros i Hi. apply HT' in Hi. destruct (weighted_upto i Hi) as (v & Hv & _). exists v. exact Hv. }
    rewrite (adds_length groups_tree H (nests_groups _ _ _ _ _ HG)) in Hs.
    assert (O : exists o, upto A 1 (nested_scale A J true u group_rho h) o /\ (r0 = 0 -> o = 1)).
    { unfold nested_scale. rewrite E0. cbn [fneg]. destruct (dampener_upto h Hh) as (d & Ed & Hd & _). rewrite Ed.
      destruct (rexp_nonpos A N HR HE (rmul A (Num (- r0)) (Num d)) HN1) as (o & Ho).
      { apply rmul_nonpos; lra. }
      exists o. split; [exact Ho|]. intros ->. destruct Ho as (Eo & _). unfold rmul in Eo. cbn [fmul] in Eo. rewrite Ropp_0, Rmult_0_l in Eo.
      assert (Z : round A (Num 0) = Num 0).
      { destruct (round_upto A N HR 0 0 (Nat.le_0_l N) ltac:(cbn; lra)) as (Z & _). rewrite Z, (rnd_zero A N HR). reflexivity. }
      rewrite Z, (rexp_zero A N HR HE HN1) in Eo. injection Eo as <-. reflexivity. }
    destruct O as (o & (Eo & Ho & Ro) & O1). rewrite Eo, Es. unfold radd. cbn [fadd]. cbn [INR] in Ho.
    destruct (round_upto A N HR (S (H * B)) (o + s) HN) as (Ed & Hd & _).
    { rewrite S_INR, Nat.mul_comm. lra. }
    destruct (weighted_upto h Hh) as (a & Ha & _). fold w in Ha. destruct Ha as (Ea & Ha & Ra).
    apply (rdiv_unit A N HR _ _ a (rnd A (o + s))); [right; split; [exact Ea|lra]|exact Ed| | |exact HN1].
    - apply Rlt_le_trans with 1; [lra|]. rewrite <- (rounds_nat _ _ HR 1%nat HN1 : rnd A 1 = 1). apply (rounds_mono _ _ HR). destruct HT as [Z|(k & Hk & Ek)].
      + rewrite (O1 Z). lra.
      + assert (Hg := nests_group _ _ _ _ _ HG k Hk).
        assert (T1 := exp_utility_top A N HR HE J u yes k r0 HN1 eq_refl E0 Ek).
        destruct (inclusive_upto (group k) Hg) as (s1 & (Es1 & _) & Ls1). assert (Q := Ls1 k 1 Hk eq_refl T1).
        destruct (weighted_upto (group k) Hg) as (v & (Ev & _) & Gv). assert (Q1 := Gv s1 Es1 Q).
        assert (Q2 := Ls (group k) v (proj2 (HT' (group k)) Hg) Ev). lra.
    - apply Rle_trans with s; [exact (Ls h a (proj2 (HT' h) Hh) Ea)|]. rewrite <- Rs at 1. apply (rounds_mono _ _ HR). lra.
  Qed.

  Lemma nested_upto j : (j < J)%nat -> exists r, upto A 1 (nested_probability A J yes true u group group_tree groups_tree group_rho several j) r.
  Proof using HR HE HL HN HJ HLN Hu HG Hrho Heq HLJ HBL.
    intro Hj. apply (rmul_unit A N HR); [exact N_one|apply conditional_upto, Hj|]. apply marginal_upto, (nests_group _ _ _ _ _ HG j Hj).
  Qed.
End Nested.
