(** Choice probabilities and the contraction in floating point arithmetic. *)
From Coq Require Import Reals Lra Lia List Bool Arith Sorting.Permutation.
From Verif Require Import FltModel IterModel RoundModel RoundSpec.
Import ListNotations.
Local Open Scope R_scope.

Section Rounds.
  Variables (A : arithmetic) (N : nat).
  Hypothesis HR : rounds A N.

  (** Rounded numbers between zero and b, and of absolute value at most b. *)
  Definition upto (b : nat) (x : flt) (r : R) : Prop := x = Num r /\ 0 <= r <= INR b /\ rnd A r = r.
  Definition within (b : nat) (x : flt) (r : R) : Prop := x = Num r /\ - INR b <= r <= INR b /\ rnd A r = r.

  Lemma rnd_zero : rnd A 0 = 0.
  Proof using HR. exact (rounds_nat _ _ HR O (Nat.le_0_l N)). Qed.
  Lemma omega_nonneg : 0 <= omega A.
  Proof using HR. eapply Rle_trans; [apply (pos_INR N)|apply (rounds_finite _ _ HR)]. Qed.
  Lemma rnd_within b r : (b <= N)%nat -> - INR b <= r <= INR b -> - INR b <= rnd A r <= INR b.
  Proof using HR.
    intros Hb [H1 H2]. apply (rounds_mono _ _ HR) in H1. apply (rounds_mono _ _ HR) in H2.
    rewrite (rounds_opp _ _ HR), (rounds_nat _ _ HR b Hb) in H1. rewrite (rounds_nat _ _ HR b Hb) in H2. lra.
  Qed.
  Lemma rnd_nonneg r : 0 <= r -> 0 <= rnd A r.
  Proof using HR. intro H. apply (rounds_mono _ _ HR) in H. rewrite rnd_zero in H. exact H. Qed.
  Lemma rnd_nonpos r : r <= 0 -> rnd A r <= 0.
  Proof using HR. intro H. apply (rounds_mono _ _ HR) in H. rewrite rnd_zero in H. exact H. Qed.
  Lemma round_within b r : (b <= N)%nat -> - INR b <= r <= INR b -> within b (round A (Num r)) (rnd A r).
  Proof using HR.
    intros Hb H. assert (Q := rnd_within b r Hb H).
    assert (T : INR b <= omega A) by (eapply Rle_trans; [apply le_INR, Hb|apply (rounds_finite _ _ HR)]).
    unfold within, round. destruct (Rlt_dec _ _); [lra|]. destruct (Rlt_dec _ _); [lra|]. split; [reflexivity|]. split; [exact Q|]. apply (rounds_idem _ _ HR).
  Qed.
  Lemma round_upto b r : (b <= N)%nat -> 0 <= r <= INR b -> upto b (round A (Num r)) (rnd A r).
  Proof using HR.
    intros Hb H. destruct (round_within b r Hb ltac:(assert (Q := pos_INR b); lra)) as (E & Q & I).
    split; [exact E|]. split; [|exact I]. split; [apply rnd_nonneg; lra|lra].
  Qed.
  (** Without a bound from below. *)
  Lemma round_nonpos r : r <= 0 -> round A (Num r) = NInf \/ (round A (Num r) = Num (rnd A r) /\ rnd A r <= 0).
  Proof using HR.
    intro H. assert (Q := rnd_nonpos r H). assert (O := omega_nonneg). unfold round.
    destruct (Rlt_dec _ _); [lra|]. destruct (Rlt_dec _ _); [left; reflexivity|right; split; [reflexivity|exact Q]].
  Qed.

  Lemma rsum_within t x b : (b * List.length (leaves t) <= N)%nat -> (forall i, In i (leaves t) -> exists r, within b (x i) r) ->
    exists s, within (b * List.length (leaves t)) (rsum A t x) s.
  Proof using HR.
    induction t as [i|l IHl r IHr]; cbn [leaves rsum].
    - intros _ H. cbn [List.length]. rewrite Nat.mul_1_r. apply H. left. reflexivity.
    - rewrite app_length, Nat.mul_add_distr_l. intros HN H.
      destruct IHl as (a & Ea & Ha & _); [lia|intros i Hi; apply H, in_or_app; auto|].
      destruct IHr as (c & Ec & Hc & _); [lia|intros i Hi; apply H, in_or_app; auto|].
      unfold radd. rewrite Ea, Ec. cbn [fadd]. exists (rnd A (a + c)). apply round_within; [exact HN|]. rewrite plus_INR. lra.
  Qed.
  Lemma rsum_upto t x b : (b * List.length (leaves t) <= N)%nat -> (forall i, In i (leaves t) -> exists r, upto b (x i) r) ->
    exists s, upto (b * List.length (leaves t)) (rsum A t x) s /\ forall i r, In i (leaves t) -> x i = Num r -> r <= s.
  Proof using HR.
    induction t as [i|l IHl r IHr]; cbn [leaves rsum].
    - intros _ H. cbn [List.length]. rewrite Nat.mul_1_r. destruct (H i (or_introl eq_refl)) as (r & Er & H1 & H2).
      exists r. split; [split; [exact Er|auto]|]. intros j q [<-|[]] Eq. rewrite Er in Eq. injection Eq as <-. lra.
    - rewrite app_length, Nat.mul_add_distr_l. intros HN H.
      destruct IHl as (a & (Ea & Ha & Ra) & La); [lia|intros i Hi; apply H, in_or_app; auto|].
      destruct IHr as (c & (Ec & Hc & Rc) & Lc); [lia|intros i Hi; apply H, in_or_app; auto|].
      unfold radd. rewrite Ea, Ec. cbn [fadd]. exists (rnd A (a + c)). split; [apply round_upto; [exact HN|]; rewrite plus_INR; lra|].
      intros i q Hi Eq. apply in_app_or in Hi. destruct Hi as [Hi|Hi].
      + apply Rle_trans with a; [exact (La i q Hi Eq)|]. rewrite <- Ra at 1. apply (rounds_mono _ _ HR). lra.
      + apply Rle_trans with c; [exact (Lc i q Hi Eq)|]. rewrite <- Rc at 1. apply (rounds_mono _ _ HR). lra.
  Qed.

  Lemma rdiv_unit x y a d : upto 1 x a \/ (x = Num a /\ 0 <= a) -> y = Num d -> 0 < d -> a <= d -> (1 <= N)%nat -> exists r, upto 1 (rdiv A x y) r.
  Proof using HR.
    intros Hx -> Hd Hle HN. assert (Ex : x = Num a /\ 0 <= a) by (destruct Hx as [(E & ? & _)|E]; [split; [exact E|lra]|exact E]).
    destruct Ex as [-> Ha]. unfold rdiv. cbn [fdiv]. destruct (Req_EM_T d 0); [lra|]. exists (rnd A (a / d)). apply round_upto; [exact HN|].
    cbn [INR]. split; [apply Rmult_le_pos; [exact Ha|apply Rlt_le, Rinv_0_lt_compat, Hd]|].
    apply Rmult_le_reg_r with d; [exact Hd|]. unfold Rdiv. rewrite Rmult_assoc, Rinv_l by lra. lra.
  Qed.
  Lemma rmul_unit x y : (1 <= N)%nat -> (exists r, upto 1 x r) -> (exists r, upto 1 y r) -> exists r, upto 1 (rmul A x y) r.
  Proof using HR.
    intros HN (a & -> & Ha & _) (b & -> & Hb & _). exists (rnd A (a * b)). unfold rmul. cbn [fmul]. apply round_upto; [exact HN|].
    cbn [INR] in *. split; [apply Rmult_le_pos; lra|]. assert (a * b <= 1 * 1) by (apply Rmult_le_compat; lra). lra.
  Qed.

  (** Exponentials. *)
  Hypothesis HE : exponential A.
  Lemma rexp_nonpos x : (1 <= N)%nat -> x = NInf \/ (exists r, x = Num r /\ r <= 0) -> exists r, upto 1 (rexp A x) r.
  Proof using HR HE.
    intros HN [->|(r & -> & Hr)]; cbn [rexp].
    - exists 0. split; [reflexivity|]. cbn [INR]. split; [lra|exact rnd_zero].
    - eexists. apply round_upto; [exact HN|]. split; [apply (exp_nonneg _ HE)|]. cbn [INR]. rewrite <- (exp_zero _ HE). apply (exp_mono _ HE), Hr.
  Qed.
  Lemma rexp_zero : (1 <= N)%nat -> rexp A (Num 0) = Num 1.
  Proof using HR HE.
    intro HN. cbn [rexp]. rewrite (exp_zero _ HE). destruct (round_upto 1 1 HN ltac:(cbn; lra)) as (E & _ & _). rewrite E.
    f_equal. exact (rounds_nat _ _ HR 1%nat HN).
  Qed.

  Lemma maximum_spec J u : (forall j, (j < J)%nat -> exists r, u j = Num r) ->
    match J with
    | O => maximum J u = NInf
    | S _ => exists m, maximum J u = Num m /\ (forall j r, (j < J)%nat -> u j = Num r -> r <= m) /\ exists j, (j < J)%nat /\ u j = Num m
    end.
  Proof using.
    induction J as [|J IH]; intro H; [reflexivity|]. cbn [maximum]. destruct (H J (Nat.lt_succ_diag_r J)) as (a & Ea).
    assert (IH' := IH (fun j Hj => H j (Nat.lt_lt_succ_r _ _ Hj))). destruct J as [|J].
    - rewrite IH', Ea. exists a. split; [reflexivity|]. split; [|exists O; auto].
      intros j r Hj Er. assert (j = O) by lia. subst. rewrite Ea in Er. injection Er as ->. apply Rle_refl.
    - destruct IH' as (m & -> & M1 & j & Hj & Ej). rewrite Ea. unfold fmax. cbn [fnan orb fltb]. unfold rltb.
      destruct (Rlt_dec m a) as [L|L].
      + exists a. split; [reflexivity|]. split; [|exists (S J); auto]. intros k r Hk Er. destruct (Nat.eq_dec k (S J)) as [->|].
        * rewrite Ea in Er. injection Er as ->. apply Rle_refl.
        * apply Rle_trans with m; [apply (M1 k); [lia|exact Er]|lra].
      + exists m. split; [reflexivity|]. split; [|exists j; split; [lia|exact Ej]]. intros k r Hk Er. destruct (Nat.eq_dec k (S J)) as [->|].
        * rewrite Ea in Er. injection Er as ->. lra.
        * apply (M1 k); [lia|exact Er].
  Qed.

  Section Utilities.
    Variables (J : nat) (u : nat -> flt).
    Hypothesis Hu : forall j, (j < J)%nat -> exists r, u j = Num r.
    Lemma reduction_spec : exists r0, reduction J u = Num r0 /\ 0 <= r0 /\ (forall j r, (j < J)%nat -> u j = Num r -> r <= r0) /\
      (r0 = 0 \/ exists j, (j < J)%nat /\ u j = Num r0).
    Proof using Hu.
      assert (M := maximum_spec J u Hu). unfold reduction. destruct J as [|J'].
      - rewrite M. exists 0. split; [reflexivity|]. split; [lra|]. split; [intros; lia|left; reflexivity].
      - destruct M as (m & -> & M1 & j & Hj & Ej). unfold fmax. cbn [fnan orb fltb]. unfold rltb. destruct (Rlt_dec 0 m).
        + exists m. split; [reflexivity|]. split; [lra|]. split; [exact M1|right; exists j; auto].
        + exists 0. split; [reflexivity|]. split; [lra|]. split; [intros k r Hk Er; specialize (M1 k r Hk Er); lra|left; reflexivity].
    Qed.

    Variable included : nat -> bool.
    Lemma exp_utility_upto j : (1 <= N)%nat -> (j < J)%nat -> exists r, upto 1 (exp_utility A J included u true j) r.
    Proof using HR HE Hu.
      intros HN Hj. unfold exp_utility. destruct (included j).
      - destruct reduction_spec as (r0 & -> & H0 & H1 & _). destruct (Hu j Hj) as (a & Ea). rewrite Ea. unfold rsub, fsub. cbn [fneg fadd].
        apply rexp_nonpos; [exact HN|]. destruct (round_nonpos (a + - r0)) as [E|[E L]]; [specialize (H1 j a Hj Ea); lra|left; exact E|].
        right. eexists. split; [exact E|exact L].
      - exists 0. split; [reflexivity|]. cbn [INR]. split; [lra|exact rnd_zero].
    Qed.
    Lemma exp_utility_top j r0 : (1 <= N)%nat -> included j = true -> reduction J u = Num r0 -> u j = Num r0 -> exp_utility A J included u true j = Num 1.
    Proof using HR HE.
      intros HN Hi E0 Ej. unfold exp_utility. rewrite Hi, E0, Ej. unfold rsub, fsub. cbn [fneg fadd]. rewrite Rplus_opp_r.
      assert (E : round A (Num 0) = Num 0).
      { destruct (round_upto 0 0 (Nat.le_0_l N) ltac:(cbn; lra)) as (E & _). rewrite E, rnd_zero. reflexivity. }
      rewrite E. apply rexp_zero, HN.
    Qed.
  End Utilities.

  Lemma adds_length t n : adds_up t n -> List.length (leaves t) = n.
  Proof using. intro H. apply Permutation_length in H. rewrite seq_length in H. exact H. Qed.
  Lemma adds_In t n : adds_up t n -> forall i, In i (leaves t) <-> (i < n)%nat.
  Proof using.
    intros H i. split; intro Hi.
    - apply (Permutation_in _ H), in_seq in Hi. lia.
    - apply (Permutation_in _ (Permutation_sym H)), in_seq. lia.
  Qed.

  Lemma outside_upto J u outside r0 : (1 <= N)%nat -> reduction J u = Num r0 -> 0 <= r0 ->
    exists o, upto 1 (outside_scale A J outside u true) o /\ (outside = true -> r0 = 0 -> o = 1).
  Proof using HR HE.
    intros N1 E0 H0. unfold outside_scale. rewrite E0. cbn [fneg]. destruct outside.
    - destruct (rexp_nonpos (Num (- r0)) N1) as (o & Eo & Ho); [right; exists (- r0); split; [reflexivity|lra]|].
      exists o. split; [split; [exact Eo|exact Ho]|]. intros _ ->. rewrite Ropp_0, rexp_zero in Eo by exact N1. injection Eo as <-. reflexivity.
    - exists 0. split; [|discriminate]. split; [reflexivity|]. split; [cbn; lra|exact rnd_zero].
  Qed.

  (** If the highest utility belongs to an option in the choice set. *)
  Lemma restricted_upto J t included outside u j : adds_up t J -> (S J <= N)%nat -> (forall j, (j < J)%nat -> exists r, u j = Num r) ->
    (outside = true /\ (forall k r, (k < J)%nat -> u k = Num r -> r <= 0)) \/
    (exists k m, (k < J)%nat /\ included k = true /\ u k = Num m /\ 0 <= m /\ forall i r, (i < J)%nat -> u i = Num r -> r <= m) ->
    (j < J)%nat -> exists r, upto 1 (probability A J t included outside u true j) r.
  Proof using HR HE.
    intros Ht HN Hu HC Hj. assert (N1 : (1 <= N)%nat) by lia.
    destruct (rsum_upto t (exp_utility A J included u true) 1) as (s & (Es & Hs & Rs) & Ls).
    { rewrite (adds_length t J Ht). lia. }
    { intros i Hi. apply exp_utility_upto; [exact Hu|exact N1|]. apply (adds_In t J Ht), Hi. }
    rewrite (adds_length t J Ht), Nat.mul_1_l in Hs.
    destruct (reduction_spec J u Hu) as (r0 & E0 & H0 & HM & HT).
    destruct (outside_upto J u outside r0 N1 E0 H0) as (o & (Eo & Ho & Ro) & O1).
    unfold probability. rewrite Eo, Es. unfold radd. cbn [fadd].
    destruct (round_upto (S J) (o + s) HN ltac:(rewrite S_INR; cbn [INR] in Ho; lra)) as (Ed & Hd & _).
    destruct (exp_utility_upto J u Hu included j N1 Hj) as (a & Ea).
    apply (rdiv_unit _ _ a (rnd A (o + s))); [left; exact Ea|exact Ed| |  |exact N1].
    - apply Rlt_le_trans with 1; [lra|]. rewrite <- (rounds_nat _ _ HR 1%nat N1 : rnd A 1 = 1). apply (rounds_mono _ _ HR). destruct HC as [[HO Hle]|(k & m & Hk & Hin & Ek & Hm & Hle)].
      + assert (Z : r0 = 0) by (destruct HT as [Z|(k & Hk & Ek)]; [exact Z|specialize (Hle k r0 Hk Ek); lra]). rewrite (O1 HO Z). lra.
      + assert (Z : r0 = m).
        { apply Rle_antisym; [|exact (HM k m Hk Ek)]. destruct HT as [->|(k' & Hk' & Ek')]; [exact Hm|exact (Hle k' r0 Hk' Ek')]. }
        rewrite <- Z in Ek. assert (L := Ls k 1 (proj2 (adds_In t J Ht k) Hk) (exp_utility_top J u included k r0 N1 Hin E0 Ek)). lra.
    - destruct Ea as (Ea & Ha & Ra). assert (L := Ls j a (proj2 (adds_In t J Ht j) Hj) Ea).
      apply Rle_trans with s; [exact L|]. rewrite <- Rs at 1. apply (rounds_mono _ _ HR). lra.
  Qed.

  Lemma probability_upto J t u j : adds_up t J -> (S J <= N)%nat -> (forall j, (j < J)%nat -> exists r, u j = Num r) -> (j < J)%nat ->
    exists r, upto 1 (probability A J t (fun _ => true) true u true j) r.
  Proof using HR HE.
    intros Ht HN Hu Hj. apply restricted_upto; try assumption. destruct (reduction_spec J u Hu) as (r0 & _ & H0 & HM & [->|(k & Hk & Ek)]).
    - left. split; [reflexivity|exact HM].
    - right. exists k, r0. auto.
  Qed.

  (** Without scaling, if utilities are not too high. *)
  Lemma unsafe_upto J U B t u j : adds_up t J -> Exp A (INR U) <= INR B -> (S (B * J) <= N)%nat ->
    (forall j, (j < J)%nat -> exists r, u j = Num r /\ r <= INR U) -> (j < J)%nat ->
    exists r, upto 1 (probability A J t (fun _ => true) true u false j) r.
  Proof using HR HE.
    intros Ht HB HN Hu Hj. assert (N1 : (1 <= N)%nat) by lia. assert (HBN : (B <= N)%nat) by (clear - HN Hj; destruct J as [|J']; [lia|]; rewrite Nat.mul_succ_r in HN; lia).
    assert (X : forall i, (i < J)%nat -> exists r, upto B (exp_utility A J (fun _ => true) u false i) r).
    { intros i Hi. destruct (Hu i Hi) as (r & Er & Hr). unfold exp_utility. rewrite Er. cbn [rexp]. eexists. apply round_upto; [exact HBN|].
      split; [apply (exp_nonneg _ HE)|]. eapply Rle_trans; [apply (exp_mono _ HE), Hr|exact HB]. }
    destruct (rsum_upto t (exp_utility A J (fun _ => true) u false) B) as (s & (Es & Hs & Rs) & Ls).
    { rewrite (adds_length t J Ht). lia. }
    { intros i Hi. apply X. apply (adds_In t J Ht), Hi. }
    rewrite (adds_length t J Ht) in Hs. unfold probability, outside_scale. rewrite Es. unfold radd. cbn [fadd].
    destruct (round_upto (S (B * J)) (1 + s) HN ltac:(rewrite S_INR; lra)) as (Ed & Hd & _).
    destruct (X j Hj) as (a & Ea & Ha & _). apply (rdiv_unit _ _ a (rnd A (1 + s))); [right; split; [exact Ea|lra]|exact Ed| | |exact N1].
    - apply Rlt_le_trans with 1; [lra|]. rewrite <- (rounds_nat _ _ HR 1%nat N1 : rnd A 1 = 1) at 1. apply (rounds_mono _ _ HR). lra.
    - assert (L := Ls j a (proj2 (adds_In t J Ht j) Hj) Ea). apply Rle_trans with s; [exact L|]. rewrite <- Rs at 1. apply (rounds_mono _ _ HR). lra.
  Qed.
End Rounds.
