(** What routines return in floating point arithmetic. *)
From Coq Require Import Reals Lra Lia List Bool Arith Sorting.Permutation FunctionalExtensionality.
From Verif Require Import Base FltModel IterModel IterSpec IterProofs IterSquarem ConvModel ConvRun RoundModel RoundSpec RoundProofs RoundContraction RoundAccuracy
  DemandSpec RateSpec RateProofs RateRound.
Import ListNotations.
Local Open Scope R_scope.

Lemma next_ext A J t agents safe mu weights shares lower upper x y j : adds_up t J -> (forall k, (k < J)%nat -> x k = y k) -> (j < J)%nat ->
  next A J t agents safe mu weights shares lower upper x j = next A J t agents safe mu weights shares lower upper y j.
Proof.
  intros Ht E Hj. unfold next, log_share. rewrite (E j Hj). do 4 f_equal. unfold market_share. f_equal. apply functional_extensionality. intro i. f_equal.
  unfold choice. apply probability_ext; [exact Ht| |exact Hj]. intros k Hk. unfold utility. rewrite (E k Hk). reflexivity.
Qed.
Lemma finite_number a l c A : ffin (rsub A (radd A a l) c) = true -> exists r, a = Num r.
Proof. destruct a as [r| | |]; [eauto|destruct l, c; discriminate ..]. Qed.
Lemma vzip_sub n x : forall J a x0, (forall j, (j < J)%nat -> nth j x0 NaN = Num (x (a + j)%nat)) ->
  vzip fsub (map (fun j => Num (n j)) (seq a J)) x0 = map (fun j => Num (n j - x j)) (seq a J).
Proof.
  induction J as [|J IH]; intros a x0 H; cbn [seq map]; [destruct x0; reflexivity|].
  destruct x0 as [|h x0]; [specialize (H O ltac:(lia)); discriminate|]. cbn [vzip].
  assert (H0 := H O ltac:(lia)). cbn [nth] in H0. rewrite Nat.add_0_r in H0. rewrite H0. f_equal. apply IH. intros j Hj.
  specialize (H (S j) ltac:(lia)). cbn [nth] in H. rewrite H. do 2 f_equal. lia.
Qed.
Lemma norm_at_most J n X : 0 <= X -> (forall j, (j < J)%nat -> Rabs (n j) <= X) -> exists r, infinity_norm (flat J n) = Num r /\ 0 <= r <= X.
Proof.
  intros HX H. destruct (norm_flat J n) as (r & E & R0 & _ & R2). exists r. split; [exact E|]. split; [exact R0|].
  destruct (Rle_dec r X) as [L|L]; [exact L|exfalso]. specialize (R2 r ltac:(lra)). assert (r < r); [|lra]. apply R2. intros j Hj. specialize (H j Hj). lra.
Qed.

Section Runs.
  Variables (A : arithmetic) (N : nat) (eps eta : R).
  Hypothesis HR : rounds A N.
  Hypothesis HE : exponential A.
  Hypothesis HL : logarithm A.
  Hypothesis HA : accurate A eps eta.
  Hypothesis HG : accurate_log A eps.
  Variables (J I M Q C : nat) (t agents : tree) (m : nat -> nat -> R) (w S : nat -> R) (b : R).
  Hypothesis HD : market_data A N J I M 1 Q C agents (fun i k => Num (m i k)) (fun i => Num (w i)) (fun j => Num (S j)) (Some (Num b)) None.
  Hypothesis Hw : forall i, (i < I)%nat -> 0 <= w i.
  Hypothesis Ht : adds_up t J.
  Hypothesis HJ : (Datatypes.S J <= N)%nat.
  Variables (group : nat -> nat) (group_tree : nat -> tree) (groups_tree : tree) (group_rho : nat -> R) (several : bool).
  Let f : contraction_fn := rounded_contraction A J t agents true (fun i k => Num (m i k)) (fun i => Num (w i)) (fun j => Num (S j)) (Some (Num b)) None
    group group_tree groups_tree group_rho several false.
  Let nxt : (nat -> flt) -> nat -> flt :=
    next A J t agents true (fun i k => Num (m i k)) (fun i => Num (w i)) (fun j => Num (S j)) (Some (Num b)) None.

  Lemma last_event atol rtol X x0 y v l : genuine f ((x0, (y, v)) :: l) -> finite_event (x0, (y, v)) ->
    below_tolerance (mk_tol (Num atol) (Num rtol) infinity_norm) (x0, (y, v)) -> 0 <= rtol -> Forall (bounded X) y ->
    exists x n, y = flat J n /\ (forall j, (j < J)%nat -> - INR X <= n j <= INR X) /\
      (forall j, (j < J)%nat -> nxt (fun k => Num (x k)) j = Num (n j) /\ Rabs (n j - x j) < atol + rtol * INR X).
  Proof using Ht.
    intros [(it & E) _] [Fy _] Hb Hr HX. cbn [fst snd] in Fy. unfold f, rounded_contraction in E. injection E as Ey Ev. subst v.
    set (g := nxt (fun k => nth k x0 NaN)). change (next A J t agents true _ _ _ _ _ _) with g in Ey.
    set (x := fun k => match nth k x0 NaN with Num r => r | _ => 0 end). set (n := fun j => match g j with Num r => r | _ => 0 end).
    assert (Fg : forall j, (j < J)%nat -> g j = Num (n j) /\ - INR X <= n j <= INR X).
    { intros j Hj. rewrite Forall_forall in HX. destruct (HX (g j)) as (r & Er & Br).
      - rewrite Ey. apply in_map, in_seq. clear - Hj. lia.
      - unfold n. rewrite Er. auto. }
    assert (Fx : forall j, (j < J)%nat -> nth j x0 NaN = Num (x j)).
    { intros j Hj. destruct (Fg j Hj) as [Eg _]. unfold g, nxt, next in Eg.
      destruct (finite_number (nth j x0 NaN) _ _ A ltac:(rewrite Eg; reflexivity)) as (r & Er). unfold x. rewrite Er. reflexivity. }
    assert (Yn : y = flat J n) by (rewrite Ey; unfold flat; apply map_ext_in; intros j Hj; apply in_seq in Hj; apply Fg; clear - Hj; lia).
    exists x, n. split; [exact Yn|]. split; [intros j Hj; apply Fg, Hj|]. intros j Hj. split.
    - rewrite <- (proj1 (Fg j Hj)). unfold g, nxt. apply next_ext; [exact Ht| |exact Hj]. intros k Hk. symmetry. exact (Fx k Hk).
    - unfold below_tolerance in Hb. cbn [t_rtol t_atol t_norm] in Hb. rewrite Yn in Hb. unfold flat in Hb. rewrite (vzip_sub n x J 0 x0 Fx) in Hb.
      destruct (norm_flat J (fun j => n j - x j)) as (r & E1 & R0 & R1 & _). unfold flat in E1. rewrite E1 in Hb.
      destruct (norm_at_most J n (INR X) (pos_INR X)) as (q & E2 & Q0 & Q1); [intros k Hk; apply Rabs_le, Fg, Hk|]. unfold flat in E2. rewrite E2 in Hb.
      eapply Rle_lt_trans; [exact (R1 j Hj)|]. cbn [fltb] in Hb. unfold rltb in Hb. destruct (Rlt_dec 0 rtol) as [L|L]; cbn [fmul fadd fltb] in Hb; unfold rltb in Hb.
      + destruct (Rlt_dec r (atol + rtol * q)) as [G|G]; [|discriminate]. assert (rtol * q <= rtol * INR X) by (apply Rmult_le_compat_l; lra). lra.
      + destruct (Rlt_dec r atol) as [G|G]; [|discriminate]. assert (rtol = 0) by lra. subst rtol. lra.
  Qed.

  Lemma converged_event atol rtol budget initial o : (1 <= budget)%nat -> routine f (mk_tol (Num atol) (Num rtol) infinity_norm) budget initial o -> o_converged o = true ->
    exists x0 y v l, genuine f ((x0, (y, v)) :: l) /\ finite_event (x0, (y, v)) /\ below_tolerance (mk_tol (Num atol) (Num rtol) infinity_norm) (x0, (y, v)) /\ o_x o = y.
  Proof using.
    intros HB [E|(scheme & factor & lim & q & E & ->)] HC.
    - destruct (simple_budget f (mk_tol (Num atol) (Num rtol) infinity_norm) budget initial HB) as (o' & E' & _ & _ & G & _). rewrite E in E'. injection E' as <-.
      apply (simple_convergence f _ budget initial o HB E) in HC. destruct HC as ([x0 [y v]] & l & El & F & B & Ex & _). rewrite El in G. exists x0, y, v, l. auto.
    - destruct (squarem_budget f (mk_tol (Num atol) (Num rtol) infinity_norm) budget scheme factor lim initial HB) as (q' & E' & _ & _ & G). rewrite E in E'. injection E' as <-.
      apply (squarem_convergence f _ budget scheme factor lim initial q HB E) in HC. destruct HC as ([x0 [y v]] & l & El & F & B & Ex & _). rewrite El in G. exists x0, y, v, l. auto.
  Qed.

  Lemma routine_shares X atol rtol budget initial o : (2 * (X + 1 + M) <= N)%nat -> (X + 1 + Q + C <= N)%nat -> (1 <= budget)%nat -> 0 <= rtol ->
    (forall j, (j < J)%nat -> S j <= 1) ->
    share_tolerance J I X M Q C (sumn I w) b eps (atol + rtol * INR X) <= 1 ->
    routine f (mk_tol (Num atol) (Num rtol) infinity_norm) budget initial o -> o_converged o = true -> Forall (bounded X) (o_x o) ->
    exists n, o_x o = flat J n /\ forall j, (j < J)%nat ->
      Rabs (share_of J I w m n j - S j) <= share_tolerance J I X M Q C (sumn I w) b eps (atol + rtol * INR X).
  Proof using HR HE HL HA HG HD Hw Ht HJ.
    intros HM HN HB Hr HS Hone Ho HC HX. destruct (converged_event atol rtol budget initial o HB Ho HC) as (x0 & y & v & l & G & F & B & Ey). rewrite Ey in *.
    destruct (last_event atol rtol X x0 y v l G F B Hr HX) as (x & n & En & Bn & Hn). exists n. split; [exact En|]. intros j Hj.
    set (tol := atol + rtol * INR X) in *. assert (tol0 : 0 < tol) by (destruct (Hn j Hj) as [_ K]; eapply Rle_lt_trans; [apply Rabs_pos|exact K]).
    assert (Qe := eps_pos A eps eta HA). assert (PX := pos_INR X). assert (PQ := pos_INR Q). assert (PC := pos_INR C). assert (PI := pos_INR I).
    assert (PJ := pos_INR J). assert (PM := pos_INR M). assert (Pb := b_pos A N J I M Q C agents m w S b HD).
    assert (PW : 0 <= sumn I w) by (apply sumn_nonneg; exact Hw). unfold share_tolerance in *.
    assert (T1 : 0 <= sumn I w * (10 * INR J + 2 * INR X + 2 * INR M + 25)) by (apply Rmult_le_pos; lra).
    assert (T2 : 0 <= (sumn I w * (10 * INR J + 2 * INR X + 2 * INR M + 25) + 15 * INR I) * eps) by (apply Rmult_le_pos; lra).
    assert (T3 : 0 <= (2 * INR X + 5 * INR Q + 4 * INR C + 6) * eps) by (apply Rmult_le_pos; lra).
    assert (T4 : 0 <= sumn I w * tol) by (apply Rmult_le_pos; lra).
    assert (X1 : INR (X + 1) = INR X + 1) by (rewrite plus_INR; cbn [INR]; ring).
    assert (tol1 : tol <= 1) by lra.
    assert (K := small_change_shares A N eps eta HR HE HL HA HG J I M Q C t agents m w S b HD Hw Ht HJ (X + 1) tol x n HM HN).
    eapply Rle_trans; [apply K|].
    - intros k Hk. specialize (Bn k Hk). destruct (Hn k Hk) as [_ D]. apply Rlt_le, abs_between in D. rewrite X1. lra.
    - exact HS.
    - rewrite X1. lra.
    - intros k Hk. destruct (Hn k Hk) as [E1 D]. split; [exact E1|apply Rlt_le, D].
    - exact Hj.
    - rewrite (plus_INR (X + 1)), X1. right. ring.
  Qed.

  (** Distances from exact mean utilities. *)
  Lemma routine_mean_utilities X atol rtol budget initial o d h : (2 * (X + 1 + M) <= N)%nat -> (X + 1 + Q + C <= N)%nat -> (1 <= budget)%nat -> 0 <= rtol ->
    (forall j, (j < J)%nat -> S j <= 1) -> (forall j, (j < J)%nat -> share_of J I w m d j = S j) ->
    0 < h -> (forall j, (j < J)%nat -> h <= wavering J I w m d j) ->
    2 * share_tolerance J I X M Q C (sumn I w) b eps (atol + rtol * INR X) <= h ->
    routine f (mk_tol (Num atol) (Num rtol) infinity_norm) budget initial o -> o_converged o = true -> Forall (bounded X) (o_x o) ->
    exists n, o_x o = flat J n /\ apart J n d (2 * share_tolerance J I X M Q C (sumn I w) b eps (atol + rtol * INR X) / h).
  Proof using HR HE HL HA HG HD Hw Ht HJ.
    intros HM HN HB Hr HS Hd Hh Hk He Ho HC HX.
    assert (J0 : (0 < J)%nat).
    { assert (G := leaves_pos t). rewrite (adds_length t J Ht) in G. destruct J; [cbn in G; lra|clear; lia]. }
    assert (h1 : h <= 1) by (assert (Wb := wavering_bounds J I w m d Hw 0); rewrite Hd in Wb by exact J0; specialize (Hk O J0); specialize (HS O J0); lra).
    destruct (routine_shares X atol rtol budget initial o HM HN HB Hr HS ltac:(lra) Ho HC HX) as (n & En & Hn). exists n. split; [exact En|].
    apply (shares_determine J I w m d Hw n _ h); [lra|exact He|exact Hk|]. intros k Hkk. rewrite Hd by exact Hkk. exact (Hn k Hkk).
  Qed.
End Runs.
