(** How fast the contraction converges, without rounding and with it. *)
From Coq Require Import Reals Lra Lia List Bool Arith Sorting.Permutation.
From Verif Require Import Base FltModel IterModel IterSpec IterProofs ConvModel ConvRun RoundModel RoundSpec RoundProofs RoundContraction RoundAccuracy
  DemandModel DemandSpec DemandProofs DemandShares DemandElim RateSpec RateProofs RateRound RateIter.
Import ListNotations.
Local Open Scope R_scope.

Section Exact.
  Variables (m : market) (a : DemandModel.agents) (safe : bool) (limits : option R * option R) (shares delta : nat -> R) (g R0 : R).
  Hypothesis V : valid_market m.
  Hypothesis Hplain : mH m = O.
  Hypothesis Hscale : eps_scale m = 1.
  Hypothesis Hw : forall i, (i < aI a)%nat -> 0 <= aw a i.
  Hypothesis Hg : 0 <= g.
  Notation J := (mJ m).
  Notation I := (aI a).
  Notation share x j := (share_of J I (aw a) (amu a) x j).
  Hypothesis Hshare : forall j, (j < J)%nat -> 0 < shares j /\ share delta j = shares j.
  Hypothesis Hwav : forall j, (j < J)%nat -> g * shares j <= wavering J I (aw a) (amu a) delta j.
  Hypothesis Hroom : forall j, (j < J)%nat -> roomy limits R0 (shares j).

  Lemma model_shares x j : (j < J)%nat -> market_shares m a safe x j = share x j.
  Proof using V Hplain Hscale.
    intro Hj. rewrite (shares_are_averaged m a safe x j V Hj). unfold share_of. apply sumn_ext. intros i Hi. rewrite Hplain, Rmult_comm. cbn [Nat.eqb]. f_equal.
    unfold chosen, logit. rewrite Hscale. replace ((x j + amu a i j) / 1) with (x j + amu a i j) by field. cbn [all_goods]. unfold all_goods. do 2 f_equal. apply sumn_ext. intros k Hk.
    replace ((x k + amu a i k) / 1) with (x k + amu a i k) by field. reflexivity.
  Qed.

  Lemma share_range x t j : (j < J)%nat -> 0 <= t <= R0 -> apart J x delta t -> exp (- (2 * R0)) * shares j <= share x j <= exp (2 * R0) * shares j.
  Proof using Hw Hshare Hg Hwav.
    intros Hj Ht Hx. destruct (Hshare j Hj) as [P E].
    assert (B : forall q, (q < J)%nat -> - t <= x q - delta q <= t) by (intros q Hq; specialize (Hx q Hq); apply abs_between in Hx; exact Hx).
    assert (U := share_above J I (aw a) (amu a) delta Hw x t j Hj (proj1 Ht) ltac:(intros q Hq; specialize (B q Hq); lra)).
    assert (L := share_below J I (aw a) (amu a) delta Hw x t j Hj (proj1 Ht) ltac:(intros q Hq; specialize (B q Hq); lra)).
    assert (WB := wavering_bounds J I (aw a) (amu a) delta Hw j). assert (OM := one_minus_exp t (proj1 Ht)). rewrite E in *. specialize (B j Hj).
    assert (0 <= wavering J I (aw a) (amu a) delta j * (1 - exp (- t))) by (apply Rmult_le_pos; lra).
    split.
    - eapply Rle_trans; [|exact U]. apply Rmult_le_compat; [left; apply exp_pos|lra|apply exp_le; lra|lra].
    - eapply Rle_trans; [exact L|]. apply Rmult_le_compat; [left; apply exp_pos| |apply exp_le; lra|lra].
      assert (wavering J I (aw a) (amu a) delta j * (1 - exp (- t)) <= shares j * 1) by (apply Rmult_le_compat; lra). lra.
  Qed.

  Lemma roomy_clip r s sh : roomy limits r sh -> exp (- (2 * r)) * sh <= s <= exp (2 * r) * sh -> fst (clip_share limits s) = s.
  Proof using.
    clear Hroom. intros [H1 H2] H. unfold clip_share. destruct limits as [[l|] [u|]]; cbn [fst snd] in *.
    - destruct (Rlt_dec s l); [lra|]. destruct (Rlt_dec u s); [lra|reflexivity].
    - destruct (Rlt_dec s l); [lra|reflexivity].
    - destruct (Rlt_dec u s); [lra|reflexivity].
    - reflexivity.
  Qed.

  Lemma exact_step x t j : (j < J)%nat -> 0 <= t <= R0 -> apart J x delta t ->
    Rabs (contraction m a safe limits shares x j - delta j) <= rate g R0 * t.
  Proof using V Hplain Hscale Hw Hg Hshare Hwav Hroom.
    intros Hj Ht Hx. destruct (Hshare j Hj) as [P E]. unfold contraction. rewrite Hplain. cbn [Nat.eqb]. rewrite model_shares by exact Hj.
    rewrite (roomy_clip R0 _ (shares j) (Hroom j Hj) (share_range x t j Hj Ht Hx)).
    destruct (contraction_rate J I (aw a) (amu a) delta Hw x t g j Hj (proj1 Ht) Hx) as [_ B]; [rewrite E; exact P|exact Hg|rewrite E; exact (Hwav j Hj)|].
    rewrite E in B. eapply Rle_trans; [exact B|]. apply rate_shrinks; [exact Hg|exact Ht].
  Qed.

  Lemma g_unit : (0 < J)%nat -> g <= 1.
  Proof using Hw Hshare Hwav.
    intro J0. destruct (Hshare O J0) as [P E]. assert (WB := wavering_bounds J I (aw a) (amu a) delta Hw 0). rewrite E in WB. specialize (Hwav O J0).
    apply Rmult_le_reg_r with (shares 0%nat); [exact P|lra].
  Qed.
  Lemma exact_rate start : 0 <= R0 -> apart J start delta R0 ->
    forall n, apart J (Nat.iter n (contraction m a safe limits shares) start) delta (rate g R0 ^ n * R0).
  Proof using V Hplain Hscale Hw Hg Hshare Hwav Hroom.
    intros HR H0 n j Hj. assert (J0 : (0 < J)%nat) by (clear - Hj; lia). assert (G1 := g_unit J0).
    assert (K : 0 <= rate g R0 <= 1).
    { unfold rate. assert (P := exp_pos (- R0)). assert (Q := exp_le (- R0) 0 ltac:(lra)). rewrite exp_0 in Q.
      assert (0 <= g * exp (- R0)) by (apply Rmult_le_pos; lra). assert (g * exp (- R0) <= 1 * 1) by (apply Rmult_le_compat; lra). lra. }
    revert j Hj. induction n as [|n IH]; intros j Hj; [cbn [Nat.iter nat_rect pow]; rewrite Rmult_1_l; exact (H0 j Hj)|].
    assert (P : 0 <= rate g R0 ^ n) by (apply pow_le; lra).
    assert (P1 : rate g R0 ^ n <= 1) by (rewrite <- (pow1 n); apply pow_incr; exact K).
    change (Nat.iter (S n) (contraction m a safe limits shares) start) with (contraction m a safe limits shares (Nat.iter n (contraction m a safe limits shares) start)).
    cbn [pow]. rewrite Rmult_assoc. apply exact_step; [exact Hj| |exact IH].
    split; [apply Rmult_le_pos; lra|]. assert (rate g R0 ^ n * R0 <= 1 * R0) by (apply Rmult_le_compat_r; lra). lra.
  Qed.
End Exact.

Lemma ln_near s p k : 0 < p -> 2 * k <= p -> Rabs (s - p) <= k -> 0 < s /\ Rabs (ln s - ln p) <= 2 * k / p.
Proof.
  intros Hp Hk H. apply abs_between in H. assert (S0 : p / 2 <= s) by lra. assert (Ps : 0 < s) by lra. split; [exact Ps|].
  assert (one : forall a b, 0 < a -> 0 < b -> p / 2 <= b -> a - b <= k -> ln a - ln b <= 2 * k / p).
  { intros a b Ha Hb Hb2 Hab.
    assert (E : ln a - ln b = ln (a / b)) by (unfold Rdiv; rewrite ln_mult, ln_Rinv by (try apply Rinv_0_lt_compat; lra); ring). rewrite E.
    assert (L : ln (a / b) <= a / b - 1).
    { assert (Q := exp_ineq1_le (ln (a / b))). rewrite exp_ln in Q by (apply Rdiv_lt_0_compat; assumption). lra. }
    assert (K0 : 0 <= k) by lra.
    assert (a / b - 1 <= 2 * k / p); [|lra]. apply Rmult_le_reg_r with b; [exact Hb|].
    replace ((a / b - 1) * b) with (a - b) by (field; lra). replace (2 * k / p * b) with (k * (2 * b / p)) by (field; lra).
    assert (1 <= 2 * b / p) by (apply Rmult_le_reg_r with p; [exact Hp|]; replace (2 * b / p * p) with (2 * b) by (field; lra); lra).
    assert (k * 1 <= k * (2 * b / p)) by (apply Rmult_le_compat_l; lra). lra. }
  assert (O1 := one s p Ps Hp ltac:(lra) ltac:(lra)). assert (O2 := one p s Hp Ps S0 ltac:(lra)). apply Rabs_le. lra.
Qed.

Section Rounded.
  Variables (A : arithmetic) (N : nat) (eps eta : R).
  Hypothesis HR : rounds A N.
  Hypothesis HE : exponential A.
  Hypothesis HL : logarithm A.
  Hypothesis HA : accurate A eps eta.
  Hypothesis HG : accurate_log A eps.
  Variables (J I M Q C : nat) (t agents : tree) (m : nat -> nat -> R) (w S : nat -> R) (b : R).
  Hypothesis HD : market_data A N J I M 1 Q C agents (fun i k => Num (m i k)) (fun i => Num (w i)) (fun j => Num (S j)) (Some (Num b)) None.
  Hypothesis Hw : forall i, (i < I)%nat -> 0 <= w i.
  Hypothesis Ht : adds_up t J.
  Hypothesis HJ : (Datatypes.S J <= N)%nat.
  Variables (X : nat) (d : nat -> R) (g r floor : R).
  Hypothesis HM : (2 * (X + M) <= N)%nat.
  Hypothesis HN : (X + Q + C <= N)%nat.
  Hypothesis Hd : forall k, (k < J)%nat -> - INR X <= d k - r /\ d k + r <= INR X.
  Hypothesis HS : forall j, (j < J)%nat -> S j <= 1 /\ share_of J I w m d j = S j.
  Hypothesis Hg : 0 < g.
  Hypothesis Hwav : forall j, (j < J)%nat -> g * S j <= wavering J I w m d j.
  Hypothesis Hfloor : 0 < floor /\ forall j, (j < J)%nat -> floor <= exp (- (2 * r)) * S j.
  Hypothesis Hb : 2 * b <= floor.
  Hypothesis Hnoise : 2 * share_noise J I X M (sumn I w) eps <= floor.
  Let nxt (x : nat -> R) (j : nat) : flt :=
    next A J t agents true (fun i k => Num (m i k)) (fun i => Num (w i)) (fun j => Num (S j)) (Some (Num b)) None (fun k => Num (x k)) j.
  Let rho : R := step_noise J I X M Q C (sumn I w) eps floor.
  Let kappa : R := rate g r.

  Lemma share_floor x e j : (j < J)%nat -> 0 <= e <= r -> apart J x d e -> floor <= share_of J I w m x j.
  Proof using Hw HS HD Hg Hwav Hfloor.
    intros Hj He Hx. eapply Rle_trans; [exact (proj2 Hfloor j Hj)|].
    exact (proj1 (share_range (mk_market J 0 (fun _ => O) false (fun _ => 0) 1) (mk_agents I w m) S d g r Hw ltac:(lra)
      (fun k Hk => conj (share_pos A N J I M Q C agents m w S b HD k Hk) (proj2 (HS k Hk))) Hwav x e j Hj He Hx)).
  Qed.

  Lemma rounded_step x e j : (j < J)%nat -> 0 <= e <= r -> apart J x d e ->
    exists n, nxt x j = Num n /\ Rabs (n - d j) <= kappa * e + rho.
  Proof using HR HE HL HA HG HD Hw Ht HJ HM HN Hd HS Hg Hwav Hfloor Hb Hnoise.
    intros Hj He Hx. assert (Qe := eps_pos A eps eta HA).
    assert (Bx : forall k, (k < J)%nat -> - INR X <= x k <= INR X) by (intros k Hk; specialize (Hx k Hk); apply abs_between in Hx; destruct (Hd k Hk); lra).
    destruct (step_error A N eps eta HR HE HL HA HG J I M Q C t agents m w S b HD Hw Ht HJ X x j HM HN Bx Hj) as (n & s & c & En & Pc & Sc & Ec & Ds & Dn).
    exists n. split; [exact En|]. set (p := share_of J I w m x j) in *. assert (Fp : floor <= p) by exact (share_floor x e j Hj He Hx).
    assert (PW : 0 <= sumn I w) by (apply sumn_nonneg; exact Hw). assert (PI := pos_INR I). assert (PX := pos_INR (X + M)). assert (PJ := pos_INR J).
    assert (pW : p <= sumn I w).
    { unfold p, share_of. apply sumn_le. intros i Hi. rewrite <- (Rmult_1_r (w i)) at 2. apply Rmult_le_compat_l; [exact (Hw i Hi)|].
      rewrite chosen_eq. assert (E1 : exp (x j + m i j) <= sumn J (fun k => exp (x k + m i k))) by (apply (sumn_ge_term J (fun k => exp (x k + m i k)) j); [intros; left; apply exp_pos|exact Hj]).
      assert (0 < exp (x j + m i j)) by apply exp_pos. apply Rmult_le_reg_r with (1 + sumn J (fun k => exp (x k + m i k))); [lra|]. unfold Rdiv. rewrite Rmult_assoc, Rinv_l by lra. lra. }
    assert (F1 : floor <= 1).
    { destruct Hfloor as [F0 FF]. specialize (FF j Hj). destruct (HS j Hj) as [S1 _]. assert (SP := share_pos A N J I M Q C agents m w S b HD j Hj).
      assert (X1 := exp_le (- (2 * r)) 0 ltac:(lra)). rewrite exp_0 in X1. assert (exp (- (2 * r)) * S j <= 1 * 1) by (apply Rmult_le_compat; [left; apply exp_pos|lra|lra|lra]). lra. }
    unfold share_noise in Hnoise. set (k0 := sumn I w * (10 * (INR J + 2) + 2 * INR (X + M) + 3)) in *. assert (K0 : 0 <= k0 * eps) by (unfold k0; repeat apply Rmult_le_pos; lra).
    assert (IE : 0 <= INR I * eps) by (apply Rmult_le_pos; lra).
    assert (WIE : 0 <= sumn I w * (INR I * eps)) by (apply Rmult_le_pos; lra).
    assert (Ms : Rmax 1 s <= 2 * sumn I w + 2).
    { apply Rmax_lub; [lra|]. destruct (Rle_dec s 1) as [L|L]; [lra|]. rewrite Rmax_right in Ds by lra. apply abs_between in Ds.
      assert (I4 : 20 * (INR I * eps) <= 1) by lra. assert (INR I * eps * s <= / 20 * s) by (apply Rmult_le_compat_r; lra). lra. }
    set (k2 := (k0 + 10 * INR I * (sumn I w + 1)) * eps) in *.
    assert (Ds' : Rabs (s - p) <= k2).
    { eapply Rle_trans; [exact Ds|]. unfold k2. apply Rmult_le_compat_r; [exact Qe|]. assert (5 * INR I * Rmax 1 s <= 5 * INR I * (2 * sumn I w + 2)) by (apply Rmult_le_compat_l; lra). lra. }
    assert (K2 : 0 <= k2) by (eapply Rle_trans; [apply Rabs_pos|exact Ds']).
    assert (Fl0 := proj1 Hfloor). destruct (ln_near s p k2 ltac:(lra) ltac:(lra) Ds') as [Ps Dl].
    assert (Ecs : c = s). { destruct Ec as [Ec|[L _]]; [exact Ec|]. apply abs_between in Ds'. lra. }
    rewrite Ecs in Dn.
    assert (Dl' : Rabs (ln s - ln p) <= 2 * k2 / floor).
    { eapply Rle_trans; [exact Dl|]. unfold Rdiv. apply Rmult_le_compat_l; [lra|]. apply Rinv_le_contravar; lra. }
    destruct (contraction_rate J I w m d Hw x e g j Hj (proj1 He) Hx) as [_ B].
    { rewrite (proj2 (HS j Hj)). exact (share_pos A N J I M Q C agents m w S b HD j Hj). }
    { lra. }
    { rewrite (proj2 (HS j Hj)). exact (Hwav j Hj). }
    rewrite (proj2 (HS j Hj)) in B. fold p in B. assert (RS := rate_shrinks g r e ltac:(lra) He). fold kappa in RS.
    apply abs_between in Dn, Dl', B. unfold rho, step_noise. unfold share_noise. fold k0. fold k2. apply Rabs_le. lra.
  Qed.

  Variables (R0 atol : R) (budget : nat).
  Hypothesis Hatol : 0 < atol.
  Let limit : R := rho / (1 - kappa).
  Hypothesis Hlimit : 0 <= R0 /\ R0 + limit <= r.
  Variables (group : nat -> nat) (group_tree : nat -> tree) (groups_tree : tree) (group_rho : nat -> R) (several : bool).
  Let f : contraction_fn := rounded_contraction A J t agents true (fun i k => Num (m i k)) (fun i => Num (w i)) (fun j => Num (S j)) (Some (Num b)) None
    group group_tree groups_tree group_rho several false.
  Let tol : tolerance := mk_tol (Num atol) (Num 0) infinity_norm.

  Lemma rho_nonneg : 0 <= rho.
  Proof using HA Hw Hfloor.
    unfold rho, step_noise, share_noise. assert (Qe := eps_pos A eps eta HA). assert (PX := pos_INR X). assert (PQ := pos_INR Q). assert (PC := pos_INR C). assert (PI := pos_INR I).
    assert (PJ := pos_INR J). assert (PM := pos_INR (X + M)). assert (PW : 0 <= sumn I w) by (apply sumn_nonneg; exact Hw). destruct Hfloor as [F _].
    assert (0 <= (2 * INR X + 5 * INR Q + 4 * INR C + 4) * eps) by (apply Rmult_le_pos; lra).
    assert (P1 : 0 <= sumn I w * (10 * (INR J + 2) + 2 * INR (X + M) + 3)) by (apply Rmult_le_pos; lra).
    assert (P2 : 0 <= INR I * (sumn I w + 1)) by (apply Rmult_le_pos; lra).
    assert (P3 : 0 <= (sumn I w * (10 * (INR J + 2) + 2 * INR (X + M) + 3) + 10 * INR I * (sumn I w + 1)) * eps) by (apply Rmult_le_pos; [lra|exact Qe]).
    assert (0 <= / floor) by (left; apply Rinv_0_lt_compat, F). unfold Rdiv. assert (0 <= 2 * ((sumn I w * (10 * (INR J + 2) + 2 * INR (X + M) + 3) + 10 * INR I * (sumn I w + 1)) * eps) * / floor) by (apply Rmult_le_pos; lra). lra.
  Qed.
  Lemma J_pos : (0 < J)%nat.
  Proof using Ht. clear - Ht. assert (G := leaves_pos t). rewrite (adds_length t J Ht) in G. destruct J; [cbn in G; lra|lia]. Qed.
  Lemma kappa_bounds : / 2 <= kappa < 1.
  Proof using Ht HD HS Hw Hg Hwav HA Hfloor Hlimit.
    assert (J0 := J_pos). assert (SP := share_pos A N J I M Q C agents m w S b HD O J0).
    assert (G1 : g <= 1).
    { assert (WB := wavering_bounds J I w m d Hw 0). rewrite (proj2 (HS O J0)) in WB. assert (H := Hwav O J0). apply Rmult_le_reg_r with (S 0%nat); [exact SP|lra]. }
    unfold kappa. apply rate_bounds; [lra|].
    destruct (Rle_dec 0 r) as [L|L]; [exact L|exfalso].
    assert (P := rho_nonneg). destruct Hlimit as [HR0 HL0]. assert (limit < 0) by lra. unfold limit in H.
    assert (K1 : 0 < 1 - kappa).
    { unfold kappa, rate. assert (0 < g * exp (- r)) by (apply Rmult_lt_0_compat; [exact Hg|apply exp_pos]). lra. }
    assert (0 <= rho / (1 - kappa)) by (apply Rmult_le_pos; [exact P|left; apply Rinv_0_lt_compat, K1]). lra.
  Qed.

  Lemma limit_facts : 0 <= limit /\ kappa * limit + rho = limit.
  Proof using Ht HD HS Hw Hg Hwav HA Hfloor Hlimit.
    assert (K := kappa_bounds). assert (P := rho_nonneg). split.
    - unfold limit. apply Rmult_le_pos; [exact P|]. left. apply Rinv_0_lt_compat. lra.
    - unfold limit. field. lra.
  Qed.

  Lemma evaluate_flat x e log it ev : 0 <= e <= r -> apart J x d e ->
    exists y, f log it ev (flat J x) = (flat J y, None) /\ apart J y d (kappa * e + rho) /\ forall j, (j < J)%nat -> nxt x j = Num (y j).
  Proof using HR HE HL HA HG HD Hw Ht HJ HM HN Hd HS Hg Hwav Hfloor Hb Hnoise.
    intros He Hx. set (y := fun j => match nxt x j with Num q => q | _ => 0 end). exists y.
    assert (Y : forall j, (j < J)%nat -> nxt x j = Num (y j) /\ Rabs (y j - d j) <= kappa * e + rho).
    { intros j Hj. destruct (rounded_step x e j Hj He Hx) as (n & En & Dn). unfold y. rewrite En. auto. }
    split; [|split; [intros j Hj; apply Y, Hj|intros j Hj; apply Y, Hj]].
    unfold f, rounded_contraction. f_equal. unfold flat at 2. apply map_ext_in. intros j Hj. apply in_seq in Hj. assert (Hj' : (j < J)%nat) by (clear - Hj; lia).
    rewrite <- (proj1 (Y j Hj')). unfold nxt. apply next_ext; [exact Ht| |exact Hj'].
    intros k Hk. unfold flat. rewrite (nth_indep _ NaN (Num (x O))) by (rewrite map_length, seq_length; exact Hk).
    rewrite (map_nth (fun j => Num (x j)) (seq 0 J) O k), seq_nth by exact Hk. reflexivity.
  Qed.

  Lemma rounded_loop : forall n fuel ev s x a, (n < fuel)%nat -> (ev + n + 1 < budget)%nat -> s_evaluations s = ev ->
    0 <= a -> a + limit <= r -> apart J x d (a + limit) -> 2 * kappa ^ n * a + 2 * limit < atol ->
    exists o y, simple_loop fuel f tol budget (flat J x) ev s = Some o /\ o_converged o = true /\ (s_evaluations (o_st o) <= ev + n + 1)%nat /\
      o_x o = flat J y /\ apart J y d ((kappa * atol + rho) / (1 - kappa)).
  Proof using HR HE HL HA HG HD Hw Ht HJ HM HN Hd HS Hg Hwav Hfloor Hb Hnoise Hatol Hlimit.
    destruct limit_facts as [L0 L1]. assert (K := kappa_bounds). assert (P := rho_nonneg).
    induction n as [|n IH]; intros fuel ev s x a Hf Hbud Hs Ha Hr Hx Hn; (destruct fuel as [|fuel]; [exfalso; clear - Hf; lia|]); cbn [simple_loop];
      destruct (evaluate_flat x (a + limit) (s_log s) (s_iterations s) (Datatypes.S (s_evaluations s)) ltac:(lra) Hx) as (y & Ey & Dy & Ny);
      unfold evaluate; rewrite Ey; cbn [fst snd]; unfold all_finite; rewrite flat_finite; cbn [andb negb];
      (replace (budget <=? Datatypes.S ev)%nat with false by (symmetry; apply Nat.leb_gt; clear - Hbud; lia)); cbn [orb];
      replace (kappa * (a + limit) + rho) with (kappa * a + limit) in Dy by (rewrite Rmult_plus_distr_l; lra);
      destruct (termination_check tol (flat J y) (vsub (flat J y) (flat J x)) None) eqn:ET.
    2: { exfalso. cbn [pow] in Hn. rewrite Rmult_1_r in Hn. unfold tol in ET. rewrite check_passes in ET; [discriminate|exact Hatol|lra|].
         intros j Hj. assert (D1 := Dy j Hj). assert (D2 := Hx j Hj). apply abs_between in D1, D2.
         assert (kappa * a <= 1 * a) by (apply Rmult_le_compat_r; lra). apply Rabs_def1; lra. }
    3: { destruct (IH fuel (Datatypes.S ev) (callback (mk_st (s_iterations s) (Datatypes.S (s_evaluations s)) ((flat J x, (flat J y, None)) :: s_log s))) y (kappa * a)) as (o & z & Eo & Co & Vo & Zo & Dz).
         - clear - Hf. lia.
         - clear - Hbud. lia.
         - cbn [callback s_evaluations]. rewrite Hs. reflexivity.
         - apply Rmult_le_pos; lra.
         - assert (kappa * a <= 1 * a) by (apply Rmult_le_compat_r; lra). lra.
         - exact Dy.
         - replace (2 * kappa ^ n * (kappa * a)) with (2 * kappa ^ Datatypes.S n * a) by (cbn [pow]; ring). exact Hn.
         - exists o, z. split; [exact Eo|]. split; [exact Co|]. split; [clear - Vo; lia|]. auto. }
    all: exists (mk_out (flat J y) (Datatypes.S ev <? budget)%nat (callback (mk_st (s_iterations s) (Datatypes.S (s_evaluations s)) ((flat J x, (flat J y, None)) :: s_log s)))), y;
      split; [reflexivity|]; cbn [o_converged o_st o_x callback s_evaluations];
      split; [apply Nat.ltb_lt; clear - Hbud; lia|]; split; [clear - Hs; lia|]; split; [reflexivity|];
      assert (CM := check_means J atol y x Hatol ET).
    all: destruct (furthest J d x J_pos) as (q & Hq & Fq); set (e := Rabs (x q - d q)) in *; assert (E0 : 0 <= e) by apply Rabs_pos;
      assert (Er : e <= r) by (eapply Rle_trans; [exact (Hx q Hq)|lra]).
    all: destruct (evaluate_flat x e (s_log s) (s_iterations s) (Datatypes.S (s_evaluations s)) ltac:(lra) Fq) as (y' & _ & Dy' & Ny').
    all: assert (YY : forall j, (j < J)%nat -> y' j = y j) by (intros j Hj; assert (H1 := Ny j Hj); rewrite (Ny' j Hj) in H1; injection H1 as H1; exact H1).
    all: assert (Ee : e <= (atol + rho) / (1 - kappa)) by
      (assert (D1 := Dy' q Hq); rewrite (YY q Hq) in D1; assert (D2 := CM q Hq);
       assert (T : e <= Rabs (y q - x q) + Rabs (y q - d q)) by
         (unfold e; replace (x q - d q) with (- (y q - x q) + (y q - d q)) by ring; eapply Rle_trans; [apply Rabs_triang|]; rewrite Rabs_Ropp; lra);
       apply Rmult_le_reg_r with (1 - kappa); [lra|]; unfold Rdiv; rewrite Rmult_assoc, Rinv_l by lra; lra).
    all: intros j Hj; rewrite <- (YY j Hj); eapply Rle_trans; [exact (Dy' j Hj)|]; apply Rle_trans with (kappa * ((atol + rho) / (1 - kappa)) + rho);
      [apply Rplus_le_compat_r, Rmult_le_compat_l; lra|right; field; lra].
  Qed.

  Lemma rounded_converges n start : apart J start d R0 -> 2 * kappa ^ n * R0 + 2 * limit < atol -> (n + 1 < budget)%nat ->
    exists o y, simple_iterator f tol budget (flat J start) = Some o /\ o_converged o = true /\ (s_evaluations (o_st o) <= n + 1)%nat /\
      o_x o = flat J y /\ apart J y d ((kappa * atol + rho) / (1 - kappa)).
  Proof using HR HE HL HA HG HD Hw Ht HJ HM HN Hd HS Hg Hwav Hfloor Hb Hnoise Hatol Hlimit.
    intros H0 Hn HB. destruct limit_facts as [L0 _].
    apply (rounded_loop n budget 0 st0 start R0); [clear - HB; lia|exact HB|reflexivity|exact (proj1 Hlimit)|exact (proj2 Hlimit)| |exact Hn].
    intros j Hj. specialize (H0 j Hj). lra.
  Qed.
End Rounded.
