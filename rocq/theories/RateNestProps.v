(** Property theorems about the speed of the contraction with nesting or a scaled idiosyncratic term: C127. *)
From Coq Require Import Reals Lra Lia List Bool Arith.
From Verif Require Import Base DemandModel DemandSpec DemandProofs DemandShares RateSpec RateProofs RateNestSpec RateNest.
Local Open Scope R_scope.

(** With nesting, the rate is the same function of g, where g now also reflects that steps are dampened by one minus the
    nesting parameter.  Bounds on shares may not be binding on the way. *)
Theorem C127_geometric_rate_nested :
  forall m a safe limits shares delta g R0 start,
  valid_market m -> mH m <> O -> (forall h, (h < mH m)%nat -> 0 <= grho m h) -> (forall i, (i < aI a)%nat -> 0 <= aw a i) -> 0 <= g -> 0 <= R0 ->
  (forall j, (j < mJ m)%nat -> 0 < shares j /\ nest_share (mJ m) (mH m) (aI a) (gid m) (grho m) (aw a) (amu a) delta j = shares j) ->
  (forall j, (j < mJ m)%nat -> g * shares j <= (1 - grho m (gid m j)) * nest_wavering (mJ m) (mH m) (aI a) (gid m) (grho m) (aw a) (amu a) delta j) ->
  (forall j, (j < mJ m)%nat -> roomy limits (R0 / (1 - grho m (gid m j))) (shares j)) ->
  apart (mJ m) start delta R0 ->
  forall n, apart (mJ m) (Nat.iter n (contraction m a safe limits shares) start) delta (rate g R0 ^ n * R0).
Proof.
  intros m a safe limits shares delta g R0 start V HH Hr Hw Hg HR HS HW HB H0.
  exact (nest_geometric m a safe limits shares delta g R0 V HH Hr Hw Hg HS HW HB start HR H0).
Qed.
Print Assumptions C127_geometric_rate_nested.

(** There always is a positive g. *)
Theorem C127_nested_rate_below_one :
  forall J H I grp r w m delta, (forall h, (h < H)%nat -> 0 <= r h < 1) -> (forall j, (j < J)%nat -> (grp j < H)%nat) ->
  (forall i, (i < I)%nat -> 0 <= w i) -> (exists i, (i < I)%nat /\ 0 < w i) ->
  exists g, 0 < g <= 1 /\ (forall j, (j < J)%nat -> g * nest_share J H I grp r w m delta j <= (1 - r (grp j)) * nest_wavering J H I grp r w m delta j) /\
    forall R0, 0 <= R0 -> / 2 <= rate g R0 < 1.
Proof.
  intros J H I grp r w m delta Hr Hgrp Hw HI. destruct (nest_ratio_exists J H I grp r w m delta Hr Hgrp Hw HI) as (g & Hg & K). exists g. split; [exact Hg|]. split; [exact K|].
  intros R0 HR. exact (rate_bounds g R0 Hg HR).
Qed.
Print Assumptions C127_nested_rate_below_one.

(** Without nesting, a factor of at least one by which the idiosyncratic term is scaled makes convergence slower. *)
Theorem C127_geometric_rate_scaled :
  forall m a safe limits shares delta g R0 start,
  valid_market m -> mH m = O -> 1 <= eps_scale m -> (forall i, (i < aI a)%nat -> 0 <= aw a i) -> 0 <= g -> 0 <= R0 ->
  (forall j, (j < mJ m)%nat -> 0 < shares j /\
     share_of (mJ m) (aI a) (aw a) (fun i k => amu a i k / eps_scale m) (fun k => delta k / eps_scale m) j = shares j) ->
  (forall j, (j < mJ m)%nat -> g * shares j <= wavering (mJ m) (aI a) (aw a) (fun i k => amu a i k / eps_scale m) (fun k => delta k / eps_scale m) j) ->
  (forall j, (j < mJ m)%nat -> roomy limits (R0 / eps_scale m) (shares j)) ->
  apart (mJ m) start delta R0 ->
  forall n, apart (mJ m) (Nat.iter n (contraction m a safe limits shares) start) delta (scaled_rate (eps_scale m) (rate g (R0 / eps_scale m)) ^ n * R0).
Proof.
  intros m a safe limits shares delta g R0 start V HH He Hw Hg HR HS HW HB H0.
  exact (scaled_geometric m a safe limits shares delta g R0 V HH He Hw Hg HS HW HB start HR H0).
Qed.
Print Assumptions C127_geometric_rate_scaled.

(** Two products in one nest, each with a share of one quarter: with a nesting parameter of one half, g is one quarter. *)
Example C127_nested_applies :
  forall n, apart 2 (Nat.iter n (contraction (mk_market 2 1 (fun _ => O) false (fun _ => / 2) 1) (mk_agents 1 (fun _ => 1) (fun _ _ => 0)) true (None, None) (fun _ => / 4)) (fun k => INR k))
    (fun _ => - ln 2 / 2) (rate (/ 4) 2 ^ n * 2) /\ rate (/ 4) 2 < 1.
Proof.
  assert (L : 0 < ln 2 < 1).
  { split; [rewrite <- ln_1; apply ln_increasing; lra|]. rewrite <- (ln_exp 1). apply ln_increasing; [lra|]. assert (Q := exp_ineq1 1 ltac:(lra)). lra. }
  intro n. split; [|unfold rate; assert (P := exp_pos (- (2))); lra].
  assert (E : exp (- ln 2 / 2 + 0) > 0) by apply exp_pos.
  assert (G : forall j, (j < 2)%nat -> nest_chosen 2 1 (fun _ => O) (fun _ => / 2) (fun _ _ => 0) (fun _ => - ln 2 / 2) 0 j = / 4).
  { intros j Hj. unfold nest_chosen, nested, within_group, group_share, group_weight, inclusive, all_goods. cbn [existsb seq andb Nat.eqb orb sumn indR].
    replace ((- ln 2 / 2 + 0) / (1 - / 2)) with (- ln 2) by field. rewrite exp_Ropp, exp_ln by lra.
    replace (0 + / 2 + / 2) with 1 by lra. unfold Rpower. rewrite ln_1, Rmult_0_r, exp_0. lra. }
  assert (GO : nest_outside 2 1 (fun _ => O) (fun _ => / 2) (fun _ _ => 0) (fun _ => - ln 2 / 2) 0 = / 2).
  { unfold nest_outside. cbn [sumn]. rewrite !G by lia. lra. }
  apply (C127_geometric_rate_nested (mk_market 2 1 (fun _ => O) false (fun _ => / 2) 1) (mk_agents 1 (fun _ => 1) (fun _ _ => 0)) true (None, None) (fun _ => / 4)
    (fun _ => - ln 2 / 2) (/ 4) 2 (fun k => INR k)).
  - split; cbn; intros; try lia; try lra; try reflexivity.
  - discriminate.
  - intros h _. cbn. lra.
  - intros i _. cbn. lra.
  - lra.
  - lra.
  - intros j Hj. split; [lra|]. unfold nest_share. cbn [sumn aI aw amu mJ mH gid grho] in *. rewrite G by exact Hj. lra.
  - intros j Hj. unfold nest_wavering. cbn [sumn aI aw amu mJ mH gid grho] in *. rewrite G, GO by exact Hj. lra.
  - intros j _. split; exact Logic.I.
  - intros k Hk. cbn [mJ] in Hk. destruct k as [|[|k]]; [| |lia]; cbn [INR]; apply Rabs_le; lra.
Qed.
(** The market of the example without nesting, with a factor of two. *)
Example C127_scaled_applies :
  forall n, apart 1 (Nat.iter n (contraction (mk_market 1 0 (fun _ => O) false (fun _ => 0) 2) (mk_agents 1 (fun _ => 1) (fun _ _ => 0)) true (None, None) (fun _ => / 2)) (fun _ => 2))
    (fun _ => 0) (scaled_rate 2 (rate (/ 2) (2 / 2)) ^ n * 2) /\ scaled_rate 2 (rate (/ 2) (2 / 2)) < 1.
Proof.
  intro n. split; [|unfold scaled_rate, rate; assert (P := exp_pos (- (2 / 2))); lra].
  assert (G : forall z, chosen 1 (fun _ _ => 0 / 2) (fun _ => 0 / 2) z 0 = / 2).
  { intro z. unfold chosen, logit, all_goods. cbn [sumn indR]. replace (0 / 2 + 0 / 2) with 0 by field. rewrite exp_0. lra. }
  apply (C127_geometric_rate_scaled (mk_market 1 0 (fun _ => O) false (fun _ => 0) 2) (mk_agents 1 (fun _ => 1) (fun _ _ => 0)) true (None, None) (fun _ => / 2) (fun _ => 0) (/ 2) 2 (fun _ => 2)).
  - split; cbn; intros; try lia; try lra; try contradiction.
  - reflexivity.
  - cbn. lra.
  - intros i _. cbn. lra.
  - lra.
  - lra.
  - intros j Hj. cbn in Hj. assert (j = O) by lia. subst. split; [lra|]. unfold share_of. cbn [sumn aI aw amu mJ eps_scale]. rewrite G. lra.
  - intros j Hj. cbn in Hj. assert (j = O) by lia. subst. unfold wavering, outside_chosen. cbn [sumn aI aw amu mJ eps_scale]. rewrite G. lra.
  - intros j _. split; exact Logic.I.
  - intros k _. rewrite Rminus_0_r, Rabs_pos_eq; lra.
Qed.
