(** The contraction in floating point arithmetic stays finite. *)
From Coq Require Import Reals Lra Lia List Bool Arith Sorting.Permutation.
From Verif Require Import FltModel IterModel RoundModel RoundSpec RoundProofs RoundNested.
Import ListNotations.
Local Open Scope R_scope.

Section Contraction.
  Variables (A : arithmetic) (N : nat).
  Hypothesis HR : rounds A N.
  Hypothesis HE : exponential A.
  Hypothesis HL : logarithm A.
  Variables (J I M W Q C : nat) (t agents : tree) (mu : nat -> nat -> flt) (weights shares : nat -> flt) (lower upper : option flt).
  Hypothesis HD : market_data A N J I M W Q C agents mu weights shares lower upper.

  Lemma I_pos : (0 < I)%nat.
  Proof using HD.
    assert (E := adds_length agents I (data_agents _ _ _ _ _ _ _ _ _ _ _ _ _ _ HD)). destruct agents; cbn [leaves] in E; [cbn in E; lia|].
    rewrite app_length in E. destruct (leaves t0_1) eqn:E1; [|cbn in E; lia]. destruct t0_1; [discriminate|]. cbn [leaves] in E1.
    clear - E1. exfalso. revert t0_1_2 E1. induction t0_1_1 as [|a IHa b IHb]; intros c E1; cbn [leaves] in E1; [discriminate|].
    apply app_eq_nil in E1. destruct E1 as [E1 _]. exact (IHa b E1).
  Qed.

  Lemma log_share_bounded choices j : (C <= N)%nat -> (forall i, (i < I)%nat -> exists r, upto A 1 (choices i j) r) ->
    bounded C (log_share A agents weights lower upper choices j).
  Proof using HR HL HD.
    intros HC Hp. assert (WN : (W <= N)%nat).
    { assert (P := I_pos). assert (S := data_size _ _ _ _ _ _ _ _ _ _ _ _ _ _ HD). clear - P S. nia. }
    assert (HI := data_agents _ _ _ _ _ _ _ _ _ _ _ _ _ _ HD).
    destruct (rsum_within A N HR agents (fun i => rmul A (choices i j) (weights i)) W) as (v & Ev & Hv & _).
    { rewrite (adds_length agents I HI). exact (data_size _ _ _ _ _ _ _ _ _ _ _ _ _ _ HD). }
    { intros i Hi. apply (adds_In agents I HI) in Hi. destruct (Hp i Hi) as (p & -> & Hp1 & _).
      destruct (data_weights _ _ _ _ _ _ _ _ _ _ _ _ _ _ HD i Hi) as (w & -> & Hw). unfold rmul. cbn [fmul]. eexists. apply (round_within A N HR); [exact WN|].
      cbn [INR] in Hp1. apply Rabs_le in Hw. assert (Rabs (p * w) <= INR W).
      { rewrite Rabs_mult, (Rabs_pos_eq p) by lra. assert (0 <= Rabs w) by apply Rabs_pos.
        assert (p * Rabs w <= 1 * Rabs w) by (apply Rmult_le_compat_r; lra). lra. }
      split; [|eapply Rle_trans; [apply Rle_abs|exact H]]. assert (X := Rle_abs (- (p * w))). rewrite Rabs_Ropp in X. lra. }
    rewrite (adds_length agents I HI) in Hv.
    destruct (data_lower _ _ _ _ _ _ _ _ _ _ _ _ _ _ HD) as (lo & El & b & -> & Hb & HbC).
    assert (HT := data_total _ _ _ _ _ _ _ _ _ _ _ _ _ _ HD).
    assert (K : log_bounded A C (clip_above upper (clip_below lower (market_share A agents weights choices j)))).
    { assert (K1 : log_bounded A C (clip_below lower (market_share A agents weights choices j))).
      { unfold market_share. rewrite Ev, El. unfold clip_below. cbn [fltb]. unfold rltb. destruct (Rlt_dec v b) as [G|G].
        - exists b. auto.
        - exists v. split; [reflexivity|]. split; [lra|].
          assert (L1 := log_mono _ HL b v Hb ltac:(lra)). assert (L2 := log_mono _ HL v (INR (W * I)) ltac:(lra) (proj2 Hv)). lra. }
      unfold clip_above. destruct upper as [c|] eqn:Eu; [|exact K1]. destruct (fltb c _); [|exact K1].
      apply (data_upper _ _ _ _ _ _ _ _ _ _ _ _ _ _ HD). reflexivity. }
    destruct K as (c & Ec & Hc & HcC). unfold log_share. rewrite Ec. cbn [rlog].
    destruct (Rlt_dec c 0); [lra|]. destruct (Req_EM_T c 0); [lra|].
    destruct (round_within A N HR C (Log A c) HC HcC) as (E & H & _). eexists. split; [exact E|exact H].
  Qed.

  Lemma rlog_shares j : (Q <= N)%nat -> (j < J)%nat -> bounded Q (rlog A (shares j)).
  Proof using HR HD.
    intros HQ Hj. destruct (data_shares _ _ _ _ _ _ _ _ _ _ _ _ _ _ HD j Hj) as (s & -> & Hs & Hq). cbn [rlog].
    destruct (Rlt_dec s 0); [lra|]. destruct (Req_EM_T s 0); [lra|].
    destruct (round_within A N HR Q (Log A s) HQ Hq) as (E & H & _). eexists. split; [exact E|exact H].
  Qed.

  Lemma radd_bounded a b x y : (a + b <= N)%nat -> bounded a x -> bounded b y -> bounded (a + b) (radd A x y).
  Proof using HR.
    intros HN (r & -> & Hr) (s & -> & Hs). unfold radd. cbn [fadd]. destruct (round_within A N HR (a + b) (r + s) HN) as (E & H & _).
    - rewrite plus_INR. lra.
    - eexists. split; [exact E|exact H].
  Qed.
  Lemma rsub_bounded a b x y : (a + b <= N)%nat -> bounded a x -> bounded b y -> bounded (a + b) (rsub A x y).
  Proof using HR.
    intros HN Hx (s & -> & Hs). change (rsub A x (Num s)) with (radd A x (Num (- s))). apply radd_bounded; [exact HN|exact Hx|].
    eexists. split; [reflexivity|lra].
  Qed.

  Lemma utility_bounded X x i j : (X + M <= N)%nat -> bounded X (x j) -> (i < I)%nat -> (j < J)%nat -> bounded (X + M) (utility A mu x i j).
  Proof using HR HD. intros HN Hx Hi Hj. apply radd_bounded; [exact HN|exact Hx|]. exact (data_mu _ _ _ _ _ _ _ _ _ _ _ _ _ _ HD i j Hi Hj). Qed.

  Lemma next_bounded X x j : adds_up t J -> (S J <= N)%nat -> (X + M <= N)%nat -> (X + Q + C <= N)%nat ->
    (forall k, (k < J)%nat -> bounded X (x k)) -> (j < J)%nat ->
    bounded (X + Q + C) (next A J t agents true mu weights shares lower upper x j).
  Proof using HR HE HL HD.
    intros Ht HJ HM HN Hx Hj. unfold next. apply rsub_bounded; [exact HN| |].
    - apply radd_bounded; [clear - HN; lia|exact (Hx j Hj)|]. apply rlog_shares; [clear - HN; lia|exact Hj].
    - apply log_share_bounded; [clear - HN; lia|]. intros i Hi. unfold choice. apply (probability_upto A N HR HE); [exact Ht|exact HJ| |exact Hj].
      intros k Hk. destruct (utility_bounded X x i k HM (Hx k Hk) Hi Hk) as (r & E & _). exists r. exact E.
  Qed.

  Variables (H L B K : nat) (group : nat -> nat) (group_tree : nat -> tree) (groups_tree : tree) (group_rho : nat -> R) (several : bool).
  Hypothesis HG : nests J H group group_tree groups_tree.
  Hypothesis Hrho : forall h, (h < H)%nat -> 0 <= group_rho h <= 1.
  Hypothesis Heq : several = true -> forall h h', (h < H)%nat -> (h' < H)%nat -> group_rho h = group_rho h'.
  Hypothesis HLJ : Log A (INR J) <= INR L.
  Hypothesis HBL : Exp A (INR L) <= INR B.
  Hypothesis HHB : (S (H * B) <= N)%nat.
  Hypothesis HJ : (J <= N)%nat.
  Hypothesis HLN : (L <= N)%nat.
  Hypothesis HK : (0 < K)%nat.
  Hypothesis Hd : forall h, (h < H)%nat -> / INR K <= rnd A (1 - group_rho h).

  Lemma nested_next_bounded X x j : (K * (X + M) <= N)%nat -> (X + Q + C <= N)%nat ->
    (forall k, (k < J)%nat -> bounded X (x k)) -> (j < J)%nat ->
    bounded (X + Q + C) (nested_next A J agents mu weights shares lower upper group group_tree groups_tree group_rho several x j).
  Proof using HR HE HL HD HG Hrho Heq HLJ HBL HHB HJ HLN HK Hd.
    intros HM HN Hx Hj. assert (KI : 0 < INR K) by (apply lt_0_INR; exact HK).
    assert (D : forall k, (k < J)%nat -> exists d, dampener A group_rho (group k) = Num d /\ / INR K <= d <= 1).
    { intros k Hk. assert (Hg := nests_group _ _ _ _ _ HG k Hk). destruct (Hrho _ Hg). unfold dampener, rsub, fsub. cbn [fneg fadd].
      destruct (round_upto A N HR 1 (1 + - group_rho (group k))) as (E & G & _); [clear - HHB; lia|cbn [INR]; lra|].
      eexists. split; [exact E|]. split; [apply (Hd _ Hg)|]. cbn [INR] in G. apply G. }
    assert (LS : bounded C (log_share A agents weights lower upper (nested_choice A J mu group group_tree groups_tree group_rho several x) j)).
    { apply log_share_bounded; [clear - HN; lia|]. intros i Hi. unfold nested_choice.
      apply (nested_upto A N HR HE HL J H L B); try assumption.
      intros k Hk. unfold nested_utility. destruct (D k Hk) as (d & -> & Hd1 & Hd2).
      destruct (utility_bounded X x i k) as (r & -> & Hr); [clear - HM HK; nia|exact (Hx k Hk)|exact Hi|exact Hk|].
      assert (dp : 0 < d) by (eapply Rlt_le_trans; [apply Rinv_0_lt_compat, KI|exact Hd1]).
      unfold rdiv. cbn [fdiv]. destruct (Req_EM_T d 0); [lra|].
      assert (G : Rabs (r / d) <= INR (K * (X + M))).
      { unfold Rdiv. rewrite Rabs_mult, mult_INR, Rmult_comm. apply Rmult_le_compat; try apply Rabs_pos.
        - rewrite Rabs_pos_eq by (apply Rlt_le, Rinv_0_lt_compat, dp). rewrite <- (Rinv_involutive (INR K)) by lra.
          apply Rinv_le_contravar; [apply Rinv_0_lt_compat, KI|exact Hd1].
        - apply Rabs_le, Hr. }
      destruct (round_within A N HR (K * (X + M)) (r / d) HM) as (E & _).
      + assert (X1 := Rle_abs (r / d)). assert (X2 := Rle_abs (- (r / d))). rewrite Rabs_Ropp in X2. lra.
      + eexists. exact E. }
    unfold nested_next. rewrite <- Nat.add_assoc. apply radd_bounded; [clear - HN; lia|exact (Hx j Hj)|].
    destruct (rsub_bounded Q C (rlog A (shares j)) _ ltac:(clear - HN; lia) (rlog_shares j ltac:(clear - HN; lia) Hj) LS) as (r & -> & Hr).
    destruct (D j Hj) as (d & -> & Hd1 & Hd2). unfold rmul. cbn [fmul].
    assert (dp : 0 <= d) by (apply Rlt_le; eapply Rlt_le_trans; [apply Rinv_0_lt_compat, KI|exact Hd1]).
    destruct (round_within A N HR (Q + C) (r * d)) as (E & G & _); [clear - HN; lia| |eexists; split; [exact E|exact G]].
    assert (Z := pos_INR (Q + C)). destruct (Rle_dec 0 r) as [S|S].
    - assert (0 <= r * d) by (apply Rmult_le_pos; lra). assert (r * d <= r * 1) by (apply Rmult_le_compat_l; lra). lra.
    - assert (0 <= (- r) * d) by (apply Rmult_le_pos; lra). assert ((- r) * d <= (- r) * 1) by (apply Rmult_le_compat_l; lra). lra.
  Qed.
End Contraction.

(** Iterating a function that increases the bound by D each time. *)
Section Iteration.
  Variables (J D E : nat) (step : (nat -> flt) -> nat -> flt).
  Hypothesis Hstep : forall X x, (X <= E)%nat -> (forall k, (k < J)%nat -> bounded X (x k)) -> forall j, (j < J)%nat -> bounded (X + D) (step x j).
  Let f : contraction_fn := fun _ _ _ x => (map (step (fun k => nth k x NaN)) (seq 0 J), None).

  Definition bounded_array (X : nat) (x : fvec) : Prop := List.length x = J /\ Forall (bounded X) x.
  Lemma bounded_nth X x k : bounded_array X x -> (k < J)%nat -> bounded X (nth k x NaN).
  Proof using. intros [E1 E2] Hk. rewrite Forall_forall in E2. apply E2, nth_In. rewrite E1. exact Hk. Qed.
  Lemma step_array X x : (X <= E)%nat -> bounded_array X x -> bounded_array (X + D) (map (step (fun k => nth k x NaN)) (seq 0 J)).
  Proof using Hstep.
    intros HX Hx. split; [rewrite map_length, seq_length; reflexivity|]. rewrite Forall_forall. intros y Hy. apply in_map_iff in Hy.
    destruct Hy as (j & <- & Hj). apply in_seq in Hj. apply (Hstep X _ HX); [intros k Hk; exact (bounded_nth X x k Hx Hk)|].
    clear - Hj. lia.
  Qed.
  Lemma bounded_finite X x : bounded_array X x -> Forall (fun a => ffin a = true) x.
  Proof using. intros [_ F]. rewrite Forall_forall in *. intros a Ha. destruct (F a Ha) as (r & -> & _). reflexivity. Qed.
  Lemma bounded_vfin X x : bounded_array X x -> vfin x = true.
  Proof using. intro Hx. apply bounded_finite in Hx. unfold vfin. rewrite forallb_forall. rewrite Forall_forall in Hx. exact Hx. Qed.

  Lemma loop_bounded tol : forall fuel M X x0 ev s, (S ev + fuel = S M)%nat -> (0 < fuel)%nat -> (X + fuel * D <= E + D)%nat -> bounded_array X x0 ->
    s_evaluations s = ev ->
    exists o, simple_loop fuel f tol M x0 ev s = Some o /\ bounded_array (X + fuel * D) (o_x o) /\ (o_converged o = false -> s_evaluations (o_st o) = M).
  Proof using Hstep.
    induction fuel as [|fuel IH]; intros M X x0 ev s HM Hf HX Hx Hs; [clear - Hf; lia|]. cbn [simple_loop].
    set (y := map (step (fun k => nth k x0 NaN)) (seq 0 J)).
    assert (HXE : (X <= E)%nat) by (clear - HX; nia).
    assert (Hy : bounded_array (X + D) y) by exact (step_array X x0 HXE Hx).
    change (evaluate f s x0) with (y, @None fvec, mk_st (s_iterations s) (S (s_evaluations s)) ((x0, (y, None)) :: s_log s)). cbv beta iota zeta.
    replace (all_finite y None) with true by (unfold all_finite; rewrite (bounded_vfin _ y Hy); reflexivity). cbn [negb].
    assert (mono : forall a b z, (a <= b)%nat -> bounded_array a z -> bounded_array b z).
    { clear. intros a b z Hab [Z1 Z2]. split; [exact Z1|]. rewrite Forall_forall in *. intros q Hq. destruct (Z2 q Hq) as (r & E1 & E2).
      exists r. split; [exact E1|]. apply le_INR in Hab. lra. }
    destruct (Nat.leb M (S ev)) eqn:EM.
    - cbn [orb]. eexists. split; [reflexivity|]. cbn [o_x o_converged o_st]. split; [apply (mono (X + D)%nat); [clear; lia|exact Hy]|].
      intros _. cbn [s_evaluations callback]. rewrite Hs. apply Nat.leb_le in EM. clear - EM HM Hf. lia.
    - cbn [orb]. apply Nat.leb_gt in EM. destruct (termination_check tol y (vsub y x0) None).
      + eexists. split; [reflexivity|]. cbn [o_x o_converged o_st]. split; [apply (mono (X + D)%nat); [clear; lia|exact Hy]|].
        intro F. apply Nat.ltb_ge in F. clear - F EM. lia.
      + set (s2 := callback _). destruct (IH M (X + D)%nat y (S ev) s2) as (o & Eo & Ho & Co).
        * clear - HM. lia.
        * clear - HM EM. lia.
        * clear - HX. nia.
        * exact Hy.
        * unfold s2. cbn [callback s_evaluations]. rewrite Hs. reflexivity.
        * exists o. split; [exact Eo|]. split; [|exact Co]. apply (mono (X + D + fuel * D)%nat); [clear; nia|exact Ho].
  Qed.

  Lemma simple_bounded tol M X x0 : (1 <= M)%nat -> (X + M * D <= E + D)%nat -> bounded_array X x0 ->
    exists o, simple_iterator f tol M x0 = Some o /\ Forall (bounded (X + M * D)) (o_x o) /\ (o_converged o = false -> s_evaluations (o_st o) = M).
  Proof using Hstep.
    intros HM HX Hx. destruct (loop_bounded tol M M X x0 0 st0) as (o & E1 & [_ E2] & E3); try (clear - HM; lia); try assumption; [reflexivity|].
    exists o. auto.
  Qed.
End Iteration.
