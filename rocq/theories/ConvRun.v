(** Lemmas about running the simple routine on the contraction, and about a market in which
    iterates cycle. *)
From Coq Require Import Reals Lra Lia List Bool Arith.
From Verif Require Import Base FltModel IterModel IterProofs DemandModel DemandSpec DemandProofs DemandShares ConvModel ConvProofs.
Import ListNotations.
Local Open Scope R_scope.

(* ---------- vectors ---------- *)

Lemma flat_finite J x : vfin (flat J x) = true.
Proof. unfold flat, vfin. apply forallb_forall. intros y Hy. apply in_map_iff in Hy. destruct Hy as [j [<- _]]. reflexivity. Qed.

Lemma column_flat J x j : (j < J)%nat -> column (flat J x) j = x j.
Proof.
  intros Hj. unfold column, flat.
  rewrite (nth_indep _ NaN (Num (x O))) by (rewrite map_length, seq_length; assumption).
  rewrite (map_nth (fun j => Num (x j)) (seq 0 J) O j), seq_nth by assumption. reflexivity.
Qed.

Lemma flat_ext J x y : (forall j, (j < J)%nat -> x j = y j) -> flat J x = flat J y.
Proof.
  intros H. unfold flat. apply map_ext_in. intros j Hj. apply in_seq in Hj. rewrite H by lia. reflexivity.
Qed.

Lemma vsub_flat J x y : vsub (flat J x) (flat J y) = flat J (fun j => x j - y j).
Proof.
  unfold flat, vsub. generalize (seq 0 J). intros l. induction l as [|j l IH]; [reflexivity|].
  cbn [map vzip]. rewrite IH. reflexivity.
Qed.

Lemma norm_flat J x : exists r, infinity_norm (flat J x) = Num r /\ 0 <= r /\
  (forall j, (j < J)%nat -> Rabs (x j) <= r) /\ (forall e, 0 < e -> (forall j, (j < J)%nat -> Rabs (x j) < e) -> r < e).
Proof.
  unfold flat.
  assert (G : forall l, exists r, infinity_norm (map (fun j => Num (x j)) l) = Num r /\ 0 <= r /\
    (forall j, In j l -> Rabs (x j) <= r) /\ (forall e, 0 < e -> (forall j, In j l -> Rabs (x j) < e) -> r < e)).
  { induction l as [|k l [r [E [H0 [H1 H2]]]]].
    - exists 0. cbn. split; [reflexivity|]. split; [lra|]. split; [tauto|]. intros e He _. exact He.
    - unfold infinity_norm in *. cbn [map fold_right]. rewrite E. cbn [fabs].
      unfold fmax. cbn [fnan orb fltb]. unfold rltb.
      destruct (Rlt_dec (Rabs (x k)) r) as [L|L].
      + exists r. split; [reflexivity|]. split; [assumption|]. split.
        * intros j [<-|Hj]; [lra|auto].
        * intros e He Hj. apply H2; [assumption|]. intros j Hl. apply Hj. right; assumption.
      + exists (Rabs (x k)). split; [reflexivity|]. split; [apply Rabs_pos|]. split.
        * intros j [<-|Hj]; [lra|]. specialize (H1 j Hj). lra.
        * intros e He Hj. apply Hj. left; reflexivity. }
  destruct (G (seq 0 J)) as [r [E [H0 [H1 H2]]]]. exists r. split; [assumption|]. split; [assumption|]. split.
  - intros j Hj. apply H1. apply in_seq. lia.
  - intros e He Hj. apply H2; [assumption|]. intros j Hl. apply Hj. apply in_seq in Hl. lia.
Qed.

(** When the check passes. *)
Lemma check_passes J atol rtol x y : 0 < atol -> 0 <= rtol ->
  (forall j, (j < J)%nat -> Rabs (x j - y j) < atol) ->
  termination_check (mk_tol (Num atol) (Num rtol) infinity_norm) (flat J x) (vsub (flat J x) (flat J y)) None = true.
Proof.
  intros Ha Hr H. unfold termination_check. cbn [t_atol t_rtol t_norm weight]. rewrite vsub_flat.
  destruct (norm_flat J (fun j => x j - y j)) as [r [E [_ [_ H2]]]].
  destruct (norm_flat J x) as [q [Eq [Hq _]]]. rewrite E, Eq.
  specialize (H2 atol Ha H). cbn [fltb].
  unfold rltb. destruct (Rlt_dec 0 rtol) as [L|L]; cbn [fmul fadd fltb]; unfold rltb;
    match goal with |- (if Rlt_dec ?a ?b then _ else _) = _ => destruct (Rlt_dec a b) as [|N] end; try reflexivity; exfalso; nra.
Qed.

Lemma check_means J atol x y : 0 < atol ->
  termination_check (mk_tol (Num atol) (Num 0) infinity_norm) (flat J x) (vsub (flat J x) (flat J y)) None = true ->
  forall j, (j < J)%nat -> Rabs (x j - y j) < atol.
Proof.
  intros Ha H j Hj. unfold termination_check in H. cbn [t_atol t_rtol t_norm weight] in H. rewrite vsub_flat in H.
  destruct (norm_flat J (fun j => x j - y j)) as [r [E [_ [H1 _]]]]. rewrite E in H. cbn [fltb] in H.
  assert (Z : rltb 0 0 = false) by (apply rltb_false; lra). rewrite Z in H. cbn [fltb] in H. apply rltb_true in H.
  specialize (H1 j Hj). lra.
Qed.

(* ---------- the simple routine on the contraction ---------- *)

Section Run.
Variables (m : market) (a : agents) (safe : bool) (bounds : option R * option R) (shares start : nat -> R).
Hypothesis V : valid_market m.
Notation f := (contraction m a safe bounds shares).
Notation J := (mJ m).
Notation it n := (Nat.iter n f start).

Lemma contraction_ext x y j : (j < J)%nat -> (forall k, (k < J)%nat -> x k = y k) -> f x j = f y j.
Proof.
  intros Hj E. unfold contraction. rewrite (market_shares_ext m a safe x y j V Hj E), (E j Hj). reflexivity.
Qed.

Lemma delta_step log i e n :
  delta_function m a safe bounds shares log i e (flat J (it n)) = (flat J (it (S n)), None).
Proof.
  unfold delta_function. rewrite flat_finite. f_equal. apply flat_ext. intros j Hj.
  apply (contraction_ext (column (flat J (it n))) (it n) j Hj). intros k Hk. apply column_flat; assumption.
Qed.

Lemma loop_step fuel t M n s :
  simple_loop (S fuel) (delta_function m a safe bounds shares) t M (flat J (it n)) n s =
  let s2 := snd (evaluate (delta_function m a safe bounds shares) s (flat J (it n))) in
  if (M <=? S n)%nat || termination_check t (flat J (it (S n))) (vsub (flat J (it (S n))) (flat J (it n))) None
  then Some (mk_out (flat J (it (S n))) (S n <? M)%nat (callback s2))
  else simple_loop fuel (delta_function m a safe bounds shares) t M (flat J (it (S n))) (S n) (callback s2).
Proof.
  cbn [simple_loop]. unfold evaluate. rewrite !delta_step. cbn [fst snd].
  unfold all_finite. rewrite flat_finite. cbn [andb negb]. reflexivity.
Qed.

(** It stops with convergence by the first time that the check passes. *)
Lemma loop_converges t M N :
  termination_check t (flat J (it (S N))) (vsub (flat J (it (S N))) (flat J (it N))) None = true ->
  (S N < M)%nat ->
  forall d n fuel s, (n + d = N)%nat -> (fuel + n >= M)%nat ->
  s_evaluations s = n ->
  exists o, simple_loop fuel (delta_function m a safe bounds shares) t M (flat J (it n)) n s = Some o /\
    o_converged o = true /\ (s_evaluations (o_st o) <= S N)%nat.
Proof.
  intros Hc HM. induction d as [|d IH]; intros n fuel s Hn Hf Hs.
  - assert (EN : n = N) by lia. rewrite EN in *. clear EN. destruct fuel as [|fuel]; [lia|]. rewrite loop_step. cbv zeta.
    rewrite Hc, orb_true_r. eexists. split; [reflexivity|]. cbn [o_converged o_st callback s_evaluations evaluate snd].
    split; [apply Nat.ltb_lt; lia|]. lia.
  - destruct fuel as [|fuel]; [lia|]. rewrite loop_step. cbv zeta.
    destruct (_ || _) eqn:E.
    + eexists. split; [reflexivity|]. cbn [o_converged o_st callback s_evaluations evaluate snd].
      split; [apply Nat.ltb_lt; lia|]. lia.
    + apply IH; [lia|lia|]. cbn [callback s_evaluations evaluate snd]. lia.
Qed.

(** Whenever convergence is reported, the values are an iterate at which the check passed. *)
Lemma loop_means t M : forall fuel n s o,
  simple_loop fuel (delta_function m a safe bounds shares) t M (flat J (it n)) n s = Some o ->
  o_converged o = true ->
  exists k, o_x o = flat J (it (S k)) /\
    termination_check t (flat J (it (S k))) (vsub (flat J (it (S k))) (flat J (it k))) None = true.
Proof.
  induction fuel as [|fuel IH]; intros n s o H Hc; [discriminate|].
  rewrite loop_step in H. cbv zeta in H.
  destruct (M <=? S n)%nat eqn:EM; cbn [orb] in H.
  - injection H as <-. cbn [o_converged] in Hc. apply Nat.leb_le in EM. apply Nat.ltb_lt in Hc. lia.
  - destruct (termination_check _ _ _ _) eqn:E.
    + injection H as <-. exists n. split; [reflexivity|assumption].
    + apply (IH _ _ _ H Hc).
Qed.

Lemma uniform l : (forall j, (j < J)%nat -> Un_cv (fun n => it n j) (l j)) ->
  forall eps, 0 < eps -> exists N, forall n, (n >= N)%nat -> forall k, (k < J)%nat -> Rabs (it n k - l k) < eps.
Proof.
  intros H eps He.
  assert (G : forall K, (K <= J)%nat -> exists N, forall n, (n >= N)%nat -> forall k, (k < K)%nat -> Rabs (it n k - l k) < eps).
  { induction K as [|K IH]; intros HK.
    - exists O. intros n _ k Hk. lia.
    - destruct IH as [N1 H1]; [lia|]. destruct (H K ltac:(lia) eps He) as [N2 H2].
      exists (Nat.max N1 N2). intros n Hn k Hk.
      destruct (Nat.eq_dec k K) as [->|]; [apply H2; lia|apply H1; lia]. }
  apply G. lia.
Qed.

Hypothesis A : valid_agents a.
Hypothesis Hr : mH m <> O -> forall h, (h < mH m)%nat -> 0 <= grho m h.
Hypothesis He1 : 1 <= eps_scale m.
Hypothesis Hs : forall j, (j < mJ m)%nat -> 0 < shares j.
Hypothesis SB : slack_bounds m bounds shares.

Lemma simple_converges atol rtol :
  sumn J shares < sumn (aI a) (aw a) -> 0 < atol -> 0 <= rtol ->
  exists N, forall M, (N < M)%nat ->
  exists o, simple_iterator (delta_function m a safe bounds shares) (mk_tol (Num atol) (Num rtol) infinity_norm) M
              (flat J start) = Some o /\ o_converged o = true /\ (s_evaluations (o_st o) <= N)%nat.
Proof.
  intros HS Ha Hrt. destruct (delta_exists m a safe shares V A Hr Hs HS) as [l Hl].
  assert (C := contraction_converges m a safe bounds shares l start V A Hr He1 Hs SB Hl).
  destruct (uniform l C (atol / 2)) as [N HN]; [lra|].
  exists (S N). intros M HM. unfold simple_iterator.
  apply (loop_converges (mk_tol (Num atol) (Num rtol) infinity_norm) M N) with (d := N) (n := O); try lia; [|reflexivity].
  apply check_passes; [assumption|assumption|]. intros j Hj.
  assert (P := HN (S N) ltac:(lia) j Hj). assert (Q := HN N ltac:(lia) j Hj).
  replace (it (S N) j - it N j) with ((it (S N) j - l j) - (it N j - l j)) by ring.
  apply Rabs_def2 in P. apply Rabs_def2 in Q. apply Rabs_def1; lra.
Qed.

Lemma simple_accurate delta eta :
  (forall j, (j < J)%nat -> market_shares m a safe delta j = shares j) -> 0 < eta ->
  exists atol0, 0 < atol0 /\ forall atol M o, 0 < atol <= atol0 ->
  simple_iterator (delta_function m a safe bounds shares) (mk_tol (Num atol) (Num 0) infinity_norm) M
    (flat J start) = Some o -> o_converged o = true ->
  forall j, (j < J)%nat -> Rabs (column (o_x o) j - delta j) <= eta.
Proof.
  intros Hd Heta.
  assert (C := contraction_converges m a safe bounds shares delta start V A Hr He1 Hs SB Hd).
  destruct (uniform delta C eta Heta) as [N HN].
  assert (FD : forall j, (j < J)%nat -> f delta j = delta j).
  { destruct SB as [SL SU]. apply (fixed_point_matches m a safe bounds shares delta V A Hs SL SU). assumption. }
  (* up to any number of steps, small changes happen only close to the solution *)
  assert (G : forall K, exists e, 0 < e /\ forall n, (n < K)%nat ->
      (forall j, (j < J)%nat -> Rabs (it (S n) j - it n j) < e) ->
      forall j, (j < J)%nat -> Rabs (it (S n) j - delta j) <= eta).
  { induction K as [|K [e [He H]]].
    - exists 1. split; [lra|]. intros n Hn. lia.
    - destruct (norm_flat J (fun j => it (S K) j - it K j)) as [r [_ [R0 [R1 R2]]]].
      destruct (Rle_lt_dec r 0) as [Z|P].
      + exists e. split; [assumption|]. intros n Hn Hc. destruct (Nat.eq_dec n K) as [->|]; [|apply H; [lia|assumption]].
        assert (E : forall j, (j < J)%nat -> it (S K) j = it K j).
        { intros j Hj. specialize (R1 j Hj). assert (B := Rabs_pos (it (S K) j - it K j)).
          assert (E0 : Rabs (it (S K) j - it K j) = 0) by lra.
          destruct (Req_dec (it (S K) j - it K j) 0) as [D|D]; [lra|]. apply Rabs_no_R0 in D. contradiction. }
        assert (E2 : forall j, (j < J)%nat -> it K j = delta j).
        { apply (contraction_unique m a safe bounds shares V A Hr Hs SB); [exact E|exact FD]. }
        intros j Hj. rewrite (E j Hj), (E2 j Hj). replace (delta j - delta j) with 0 by ring. rewrite Rabs_R0. lra.
      + exists (Rmin e r). split; [apply Rmin_pos; assumption|]. intros n Hn Hc.
        destruct (Nat.eq_dec n K) as [->|].
        * exfalso. assert (r < r); [|lra]. apply R2; [assumption|]. intros j Hj.
          eapply Rlt_le_trans; [apply Hc; assumption|apply Rmin_r].
        * apply H; [lia|]. intros j Hj. eapply Rlt_le_trans; [apply Hc; assumption|apply Rmin_l]. }
  destruct (G N) as [e [He Hsmall]]. exists e. split; [assumption|].
  intros atol M o [Ha Hae] Ho Hc j Hj. unfold simple_iterator in Ho.
  destruct (loop_means _ _ _ O _ _ Ho Hc) as [k [Ex Ck]]. rewrite Ex, column_flat by assumption.
  assert (Q := check_means J atol _ _ Ha Ck).
  destruct (le_lt_dec N k) as [L|L]; [left; apply HN; [lia|assumption]|].
  apply Hsmall; [assumption| |assumption]. intros i Hi. eapply Rlt_le_trans; [apply Q; assumption|assumption].
Qed.
End Run.

(* ---------- a market in which iterates cycle ---------- *)

Definition cycle_market : market := mk_market 1 0 (fun _ => O) false (fun _ => 0) (/ 8).
Definition cycle_agents : agents := mk_agents 1 (fun _ => 1) (fun _ _ => 0).
Definition half : nat -> R := fun _ => / 2.
Definition cyc (x : R) : R := x - ln 2 + ln (1 + exp (-8 * x)).

Lemma cycle_market_valid : valid_market cycle_market.
Proof. split; cbn; try lia; try lra. Qed.

Lemma cycle_agents_valid : valid_agents cycle_agents.
Proof. split; [intros; cbn; lra|]. exists O. cbn. split; [lia|lra]. Qed.

Lemma cycle_share safe x : market_shares cycle_market cycle_agents safe x O = / (1 + exp (-8 * x O)).
Proof.
  unfold market_shares. cbn [cycle_agents aI aw amu sumn].
  destruct (probabilities_spec cycle_market safe true None None None x (fun _ => 0) cycle_market_valid) as [A _].
  destruct (A eq_refl) as [A1 _]. rewrite full_choice_with, A1 by (cbn; lia). rewrite included_all.
  unfold logit. cbn [cycle_market mJ all_goods indR sumn eps_scale]. unfold utility. cbn [cycle_market eps_scale].
  replace (-8 * x O) with (- ((x O + 0) / / 8)) by field. rewrite exp_Ropp.
  assert (P := exp_pos ((x O + 0) / / 8)). field. lra.
Qed.

Lemma cycle_contraction safe x : contraction cycle_market cycle_agents safe (None, None) half x O = cyc (x O).
Proof.
  unfold contraction. cbn [cycle_market mH Nat.eqb clip_share fst]. fold cycle_market. rewrite cycle_share.
  assert (P := exp_pos (-8 * x O)). rewrite ln_Rinv by lra. unfold half, cyc. rewrite ln_Rinv by lra. ring.
Qed.

Lemma cycle_iter safe start n :
  Nat.iter n (contraction cycle_market cycle_agents safe (None, None) half) start O = Nat.iter n cyc (start O).
Proof.
  induction n as [|n IH]; [reflexivity|].
  change (contraction cycle_market cycle_agents safe (None, None) half
    (Nat.iter n (contraction cycle_market cycle_agents safe (None, None) half) start) O = cyc (Nat.iter n cyc (start O))).
  rewrite cycle_contraction, IH. reflexivity.
Qed.

Lemma cyc_0 : cyc 0 = 0.
Proof. unfold cyc. rewrite Rmult_0_r, exp_0. replace (1 + 1) with 2 by ring. ring. Qed.

Lemma cyc_deriv x : derivable_pt_lim cyc x (1 + (-8 * exp (-8 * x)) / (1 + exp (-8 * x))).
Proof.
  assert (P := exp_pos (-8 * x)).
  assert (D1 : derivable_pt_lim (fun y => 1 + exp (-8 * y)) x (0 + exp (-8 * x) * (-8 * 1))).
  { apply (derivable_pt_lim_plus (fun _ => 1) (fun y => exp (-8 * y))); [apply derivable_pt_lim_const|].
    apply (derivable_pt_lim_comp (fun y => -8 * y) exp); [|apply derivable_pt_lim_exp].
    apply (derivable_pt_lim_scal (fun y => y)). apply derivable_pt_lim_id. }
  assert (D2 : derivable_pt_lim (fun y => ln (1 + exp (-8 * y))) x (/ (1 + exp (-8 * x)) * (0 + exp (-8 * x) * (-8 * 1)))).
  { apply (derivable_pt_lim_comp (fun y => 1 + exp (-8 * y)) ln); [assumption|]. apply derivable_pt_lim_ln. lra. }
  assert (D3 := derivable_pt_lim_plus _ _ _ _ _
    (derivable_pt_lim_minus _ _ _ _ _ (derivable_pt_lim_id x) (derivable_pt_lim_const (ln 2) x)) D2).
  replace (1 + -8 * exp (-8 * x) / (1 + exp (-8 * x)))
    with (1 - 0 + / (1 + exp (-8 * x)) * (0 + exp (-8 * x) * (-8 * 1))) by (field; lra).
  exact D3.
Qed.

Lemma cyc_continuous : continuity cyc.
Proof. intros x. apply derivable_continuous_pt. eexists. apply cyc_deriv. Qed.

Lemma ln2_lt_1 : ln 2 < 1.
Proof.
  rewrite <- (ln_exp 1). apply ln_increasing; [lra|]. assert (1 + 1 < exp 1) by (apply exp_ineq1; lra). lra.
Qed.

Lemma cyc_le y : 0 <= y -> cyc y <= y.
Proof.
  intros Hy. unfold cyc. assert (ln (1 + exp (-8 * y)) <= ln 2); [|lra].
  assert (P := exp_pos (-8 * y)). assert (exp (-8 * y) <= 1).
  { apply Rle_trans with (exp 0); [apply exp_le; lra|right; apply exp_0]. }
  apply ln_le'; lra.
Qed.

Lemma cyc_fixed x : cyc x = x -> x = 0.
Proof.
  intros E. assert (P := exp_pos (-8 * x)).
  assert (L : ln (1 + exp (-8 * x)) = ln 2) by (unfold cyc in E; lra).
  apply ln_inv in L; [|lra|lra]. assert (X : exp (-8 * x) = exp 0) by (rewrite exp_0; lra).
  apply exp_inv in X. lra.
Qed.

Lemma cyc_two_cycle : exists z, 0 < z /\ cyc (cyc z) = z /\ cyc z <> z.
Proof.
  assert (D : derivable_pt_lim cyc 0 (-3)).
  { assert (D := cyc_deriv 0). rewrite Rmult_0_r, exp_0 in D.
    replace (1 + -8 * 1 / (1 + 1)) with (-3) in D by field. exact D. }
  destruct (D 1 ltac:(lra)) as [[d Hd] H]. cbn [pos] in H.
  assert (K : forall h, h <> 0 -> Rabs h < d -> -4 < cyc h / h < -2).
  { intros h Hh Hl. specialize (H h Hh Hl). rewrite Rplus_0_l, cyc_0, Rminus_0_r in H. apply Rabs_def2 in H. lra. }
  set (h := Rmin d 1 / 8).
  assert (Hm : 0 < Rmin d 1) by (apply Rmin_pos; lra).
  assert (Hm1 := Rmin_l d 1). assert (Hm2 := Rmin_r d 1).
  assert (Hh : 0 < h) by (unfold h; lra).
  assert (Bh : -4 * h < cyc h < -2 * h).
  { destruct (K h) as [K1 K2]; [lra|rewrite Rabs_pos_eq by lra; unfold h; lra|].
    apply (Rmult_lt_compat_r h) in K1; [|assumption]. apply (Rmult_lt_compat_r h) in K2; [|assumption].
    replace (cyc h / h * h) with (cyc h) in K1, K2 by (field; lra). lra. }
  assert (By : h < cyc (cyc h)).
  { set (y := cyc h) in *. destruct (K y) as [K1 K2]; [lra|rewrite Rabs_left by lra; unfold h in *; lra|].
    apply (Rmult_lt_compat_r (- y)) in K2; [|lra].
    replace (cyc y / y * - y) with (- cyc y) in K2 by (field; lra). lra. }
  assert (G1 : 0 < cyc 1 < 1).
  { unfold cyc. assert (P := exp_pos (-8 * 1)). assert (L := ln2_lt_1).
    assert (E1 : exp (-8 * 1) < exp 0) by (apply exp_increasing; lra). rewrite exp_0 in E1.
    assert (E2 : ln 1 < ln (1 + exp (-8 * 1))) by (apply ln_increasing; lra). rewrite ln_1 in E2.
    assert (ln (1 + exp (-8 * 1)) < ln 2) by (apply ln_increasing; lra). lra. }
  assert (G2 := cyc_le (cyc 1) ltac:(lra)).
  assert (CK : continuity (fun x => x - cyc (cyc x))).
  { apply (continuity_minus (fun x => x) (fun x => cyc (cyc x))).
    - intros x. apply derivable_continuous_pt. apply derivable_pt_id.
    - apply (continuity_comp cyc cyc); apply cyc_continuous. }
  destruct (IVT (fun x => x - cyc (cyc x)) h 1 CK) as [z [Hz Ez]]; [unfold h; lra|lra|lra|].
  exists z. split; [lra|]. split; [lra|]. intros E. apply cyc_fixed in E. lra.
Qed.

Lemma cycle_even z n : cyc (cyc z) = z -> Nat.iter (2 * n) cyc z = z.
Proof.
  intros E. induction n as [|n IH]; [reflexivity|].
  replace (2 * S n)%nat with (S (S (2 * n))) by lia.
  change (cyc (cyc (Nat.iter (2 * n) cyc z)) = z). rewrite IH. exact E.
Qed.

Lemma cycle_gap z n : cyc (cyc z) = z -> Rabs (Nat.iter (S n) cyc z - Nat.iter n cyc z) = Rabs (cyc z - z).
Proof.
  intros E. destruct (Nat.Even_or_Odd n) as [[k ->]|[k ->]].
  - change (Rabs (cyc (Nat.iter (2 * k) cyc z) - Nat.iter (2 * k) cyc z) = Rabs (cyc z - z)).
    rewrite (cycle_even z k E). reflexivity.
  - replace (2 * k + 1)%nat with (S (2 * k)) by lia.
    change (Rabs (cyc (cyc (Nat.iter (2 * k) cyc z)) - cyc (Nat.iter (2 * k) cyc z)) = Rabs (cyc z - z)).
    rewrite (cycle_even z k E), E. apply Rabs_minus_sym.
Qed.

Lemma iterates_cycle :
  exists m a shares delta start gap,
    valid_market m /\ mH m = O /\ valid_agents a /\ 0 < eps_scale m < 1 /\
    (forall j, (j < mJ m)%nat -> 0 < shares j) /\ sumn (mJ m) shares < sumn (aI a) (aw a) /\
    (forall safe j, (j < mJ m)%nat -> market_shares m a safe delta j = shares j) /\ 0 < gap /\
    forall safe,
      (forall n, exists j, (j < mJ m)%nat /\
         gap <= Rabs (Nat.iter (S n) (contraction m a safe (None, None) shares) start j
                      - Nat.iter n (contraction m a safe (None, None) shares) start j)) /\
      (forall atol M o, 0 < atol <= gap ->
         simple_iterator (delta_function m a safe (None, None) shares)
           (mk_tol (Num atol) (Num 0) infinity_norm) M (flat (mJ m) start) = Some o ->
         o_converged o = false).
Proof.
  destruct cyc_two_cycle as [z [Hz [E N]]].
  exists cycle_market, cycle_agents, half, (fun _ => 0), (fun _ => z), (Rabs (cyc z - z)).
  split; [apply cycle_market_valid|]. split; [reflexivity|]. split; [apply cycle_agents_valid|].
  split; [cbn; lra|]. split; [intros; unfold half; lra|]. split; [cbn; unfold half; lra|].
  split.
  { intros safe j Hj. cbn in Hj. assert (j = O) by lia. subst j. rewrite cycle_share, Rmult_0_r, exp_0. unfold half. f_equal; lra. }
  split; [apply Rabs_pos_lt; lra|].
  intros safe.
  assert (G : forall n, Rabs (Nat.iter (S n) (contraction cycle_market cycle_agents safe (None, None) half) (fun _ => z) O
                      - Nat.iter n (contraction cycle_market cycle_agents safe (None, None) half) (fun _ => z) O) = Rabs (cyc z - z)).
  { intros n. rewrite !cycle_iter. apply cycle_gap; assumption. }
  split.
  - intros n. exists O. split; [cbn; lia|]. right. symmetry. apply G.
  - intros atol M o [Ha Hb] Ho. destruct (o_converged o) eqn:Ec; [exfalso|reflexivity].
    destruct (loop_means cycle_market cycle_agents safe (None, None) half (fun _ => z) cycle_market_valid _ _ _ O _ _ Ho Ec) as [k [_ C]].
    assert (Q := check_means _ _ _ _ Ha C O ltac:(cbn; lia)). rewrite G in Q. lra.
Qed.
