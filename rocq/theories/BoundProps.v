(** What bounds on shares and marginal costs do (C163). *)
From Coq Require Import Reals Lra Lia List Bool Arith.
From Verif Require Import Base FltModel IterModel ConvModel DemandSpec DemandModel DemandProofs DemandElim DemandShares SupplyModel DerivModel EndoModel RateSpec
  BoundModel BoundSpec BoundProofs.
Import ListNotations.
Local Open Scope R_scope.

(** Bounds that are not the same array are accepted exactly if each is one number and the lower is not above the upper; missing ones are
    infinite. *)
Theorem C163_accepted :
  (forall h, coerce_bounds h None = (Bounds NInf PInf, h)) /\
  (forall h l u x y, separate l u ->
    (fst (coerce_bounds h (Some [l; u])) = Bounds x y <->
     exists a b, number h l a /\ number h u b /\ x = documented NInf a /\ y = documented PInf b /\ fltb y x = false)) /\
  (forall h bounds, length bounds <> 2%nat -> coerce_bounds h (Some bounds) = (Refused NotAPair, h)).
Proof.
  split; [reflexivity|]. split; [exact coerce_accepts|].
  intros h [|l [|u [|]]] H; try reflexivity. exfalso. apply H. reflexivity.
Qed.
Print Assumptions C163_accepted.

(** If the same array that is not a number is given for both, the upper bound is minus infinity. *)
Theorem C163_same_array_refuted :
  ~ (forall h l u a b, number h l a -> number h u b -> fltb (documented PInf b) (documented NInf a) = false ->
     fst (coerce_bounds h (Some [l; u])) = Bounds (documented NInf a) (documented PInf b)).
Proof. intros H. specialize (H (fun _ => [NaN]) (Floats 0) (Floats 0) NaN NaN eq_refl eq_refl eq_refl). discriminate. Qed.
Print Assumptions C163_same_array_refuted.

(** Arrays that users keep are unchanged if they contain no NaN ... *)
Theorem C163_arguments :
  forall h l u a, (forall x, In x (h a) -> x <> NaN) \/ (l <> Floats a /\ u <> Floats a) -> snd (coerce_bounds h (Some [l; u])) a = h a.
Proof. exact coerce_memory. Qed.
Print Assumptions C163_arguments.
(** ... and changed otherwise, even when bounds are refused. *)
Theorem C163_arguments_refuted : ~ (forall h bounds a, snd (coerce_bounds h bounds) a = h a).
Proof. intros H. specialize (H (fun _ => [NaN; NaN]) (Some [NoBound; Floats 0]) 0%nat). discriminate. Qed.
Print Assumptions C163_arguments_refuted.

(** Bounded costs are the closest ones within bounds, and costs are reported as clipped exactly if they are not within bounds. *)
Theorem C163_costs :
  forall bounds c, proper bounds ->
  within bounds (clip_cost bounds c) /\ (within bounds c -> clip_cost bounds c = c) /\
  (forall d, within bounds d -> Rabs (clip_cost bounds c - c) <= Rabs (d - c)) /\
  (cost_clipped bounds c = true <-> outside bounds c) /\ (cost_clipped bounds c = false <-> within bounds c).
Proof.
  intros bounds c P. destruct (clip_within bounds c P) as [A [B C]]. split; [exact A|]. split; [exact B|]. split; [exact C|]. split; [apply clipped_outside|].
  assert (K1 := proj1 (clipped_outside bounds c)). assert (K2 := proj2 (clipped_outside bounds c)). split.
  - intros E. assert (N : ~ outside bounds c) by (intros O; apply K2 in O; congruence). split; intros z Ez.
    + destruct (Rle_dec z c); [assumption|]. exfalso. apply N. left. exists z. split; [exact Ez|lra].
    + destruct (Rle_dec c z); [assumption|]. exfalso. apply N. right. exists z. split; [exact Ez|lra].
  - intros [W1 W2]. apply not_true_is_false. intros E. apply K1 in E. destruct E as [[z [Ez L]]|[z [Ez L]]]; [specialize (W1 z Ez)|specialize (W2 z Ez)]; lra.
Qed.
Print Assumptions C163_costs.

(** With a positive lower bound, log costs exist and the error about nonpositive costs is never reported. *)
Theorem C163_log_costs :
  forall S bounds J costs lo, fst bounds = Some lo -> 0 < lo -> (forall hi, snd bounds = Some hi -> lo <= hi) ->
  nonpositive_costs S bounds J costs = false /\ forall j, stype S = LogCosts -> ln lo <= tilde_costs S bounds costs j.
Proof.
  intros S bounds J costs lo E L H. destruct (positive_costs S bounds J costs lo E L H) as [A B]. split; [exact A|].
  intros j T. unfold tilde_costs. rewrite T. apply ln_mono; [exact L|apply B].
Qed.
Print Assumptions C163_log_costs.

(** Otherwise, an error is reported exactly if some bounded cost whose logarithm is needed is not positive. *)
Theorem C163_nonpositive_costs :
  forall S bounds J costs, nonpositive_costs S bounds J costs = true <->
  stype S = LogCosts /\ exists j, (j < J)%nat /\ clip_cost bounds (costs j) <= 0.
Proof.
  intros S bounds J costs. unfold nonpositive_costs. destruct (stype S); [split; [discriminate|intros [E _]; discriminate]|].
  rewrite existsb_exists. split.
  - intros (j & I & E). apply in_seq in I. split; [reflexivity|]. exists j. split; [lia|]. destruct (Rle_dec _ _); [assumption|discriminate].
  - intros (_ & j & Hj & E). exists j. split; [apply in_seq; lia|]. destruct (Rle_dec _ _); [reflexivity|contradiction].
Qed.
Print Assumptions C163_nonpositive_costs.

(** Rows of Jacobians with respect to parameters of demand are derivatives of bounded costs, zero for clipped ones, unless a cost is exactly at
    a bound. *)
Theorem C163_jacobian :
  forall S bounds p (eta : R -> nat -> R) e t j, proper bounds -> inside bounds (p j - eta t j) \/ outside bounds (p j - eta t j) ->
  derivable_pt_lim (fun s => eta s j) t (e j) -> (stype S = LogCosts -> 0 < clip_cost bounds (p j - eta t j)) ->
  derivable_pt_lim (fun s => tilde_costs S bounds (fun k => p k - eta s k) j) t (omega_jacobian S bounds (fun k => p k - eta t k) (Demand e) j).
Proof. exact costs_derivative. Qed.
Print Assumptions C163_jacobian.

(** Structural errors move with parameters of supply as their characteristics say, whether costs are clipped or not ... *)
Definition with_gamma (S : supply) (k : nat) (g : R) : supply := mk_supply (sK3 S) (sX3 S) (fun l => if Nat.eqb l k then g else sgamma S l) (stype S).
Theorem C163_gamma :
  forall S bounds shares costs k j g, (k < sK3 S)%nat ->
  derivable_pt_lim (fun s => residual_omega (with_gamma S k s) bounds shares costs j) g (- ev (sX3 S k) j (shares j)) /\
  (cost_clipped bounds (costs j) = false ->
   omega_jacobian (with_gamma S k g) bounds costs (Gamma (fun i => ev (sX3 S k) i (shares i))) j = - ev (sX3 S k) j (shares j)).
Proof.
  intros S bounds shares costs k j g Hk. split; [|intros E; unfold omega_jacobian; rewrite E; reflexivity].
  set (X := fun l => ev (sX3 S l) j (shares j)). set (rest := sumn (sK3 S) (fun l => if Nat.eqb l k then 0 else X l * sgamma S l)).
  assert (F : forall s, residual_omega (with_gamma S k s) bounds shares costs j = (tilde_costs S bounds costs j - rest) - X k * s).
  { intros s. unfold residual_omega, with_gamma, tilde_costs. cbn [stype sK3 sX3 sgamma]. rewrite (sumn_ext _ _ (fun l => (if Nat.eqb l k then 0 else X l * sgamma S l) + (if Nat.eqb l k then X k * s else 0))).
    - rewrite sumn_plus. fold rest. rewrite (sumn_single (sK3 S) k (fun l => if Nat.eqb l k then X k * s else 0) Hk); [rewrite Nat.eqb_refl; ring|].
      intros l _ N. destruct (Nat.eqb_spec l k); [congruence|reflexivity].
    - intros l _. fold (X l). destruct (Nat.eqb_spec l k) as [-> |]; ring. }
  apply locally_same with (fun s => (tilde_costs S bounds costs j - rest) - X k * s); [exists 1; split; [lra|]; intros s _; apply F|].
  fold (X k). replace (- X k) with (0 - (X k * 1)) by ring. apply (derivable_pt_lim_minus (fun _ => _) (fun s => X k * s)); [apply derivable_pt_lim_const|].
  apply (derivable_pt_lim_scal id); apply derivable_pt_lim_id.
Qed.
Print Assumptions C163_gamma.
(** ... but reported derivatives with respect to them are zero when costs are clipped. *)
Definition share_supply : supply := mk_supply 1 (fun _ => mk_column true (fun _ x => x) (fun _ _ => 1) (fun _ _ => 0)) (fun _ => 1) LinearCosts.
Theorem C163_gamma_refuted :
  ~ (forall S bounds shares costs k j g, proper bounds -> (k < sK3 S)%nat -> inside bounds (costs j) \/ outside bounds (costs j) ->
     derivable_pt_lim (fun s => residual_omega (with_gamma S k s) bounds shares costs j) g
       (omega_jacobian (with_gamma S k g) bounds costs (Gamma (fun i => ev (sX3 S k) i (shares i))) j)).
Proof.
  intros H. set (b := (Some 1, @None R)). assert (O : outside b (/ 2)) by (left; exists 1; split; [reflexivity|lra]).
  specialize (H share_supply b (fun _ => 1) (fun _ => / 2) 0%nat 0%nat 0 ltac:(intros lo hi E; discriminate) ltac:(cbn; lia) (or_intror O)).
  assert (G := proj1 (C163_gamma share_supply b (fun _ => 1) (fun _ => / 2) 0%nat 0%nat 0 ltac:(cbn; lia))).
  assert (E := uniqueness_limite _ _ _ _ H G). unfold omega_jacobian in E. rewrite (proj2 (clipped_outside b (/ 2)) O) in E. cbn in E. lra.
Qed.
Print Assumptions C163_gamma_refuted.

(** Fixed points of the contraction with bounds are mean utilities at which bounded shares are the observed ones. *)
Theorem C163_fixed_points :
  forall m a safe bounds shares x j, valid_market m -> valid_agents a -> proper bounds -> (forall hi, snd bounds = Some hi -> 0 < hi) -> (j < mJ m)%nat -> 0 < shares j ->
  (contraction m a safe bounds shares x j = x j <->
   market_shares m a safe x j = shares j /\ within bounds (shares j) \/
   (exists lo, fst bounds = Some lo /\ shares j = lo /\ market_shares m a safe x j < lo) \/
   (exists hi, snd bounds = Some hi /\ shares j = hi /\ hi < market_shares m a safe x j)).
Proof.
  intros m a safe bounds shares x j V A P U Hj S. rewrite (fixed_iff_clip m a safe bounds shares x j V A P U Hj S).
  set (s := market_shares m a safe x j). clearbody s. clear - P. unfold clip_share, within. destruct bounds as [[lo|] [hi|]]; cbn [fst snd].
  - specialize (P lo hi eq_refl). destruct (Rlt_dec s lo) as [L|L].
    + destruct (Rlt_dec hi lo); cbn [fst]; [lra|]. split.
      * intros E. right; left. exists lo. split; [reflexivity|]. split; [lra|lra].
      * intros [[E [B _]]|[[z [E1 [E2 E3]]]|[z [E1 [E2 E3]]]]]; [specialize (B lo eq_refl); lra|injection E1 as <-; lra|injection E1 as <-; lra].
    + destruct (Rlt_dec hi s) as [L2|L2]; cbn [fst]; split.
      * intros E. right; right. exists hi. split; [reflexivity|]. split; [lra|lra].
      * intros [[E [_ B]]|[[z [E1 [E2 E3]]]|[z [E1 [E2 E3]]]]]; [specialize (B hi eq_refl); lra|injection E1 as <-; lra|injection E1 as <-; lra].
      * intros E. left. split; [exact E|]. split; intros z Ez; injection Ez as <-; lra.
      * intros [[E _]|[[z [E1 [E2 E3]]]|[z [E1 [E2 E3]]]]]; [exact E|injection E1 as <-; lra|injection E1 as <-; lra].
  - destruct (Rlt_dec s lo) as [L|L]; cbn [fst]; split.
    + intros E. right; left. exists lo. split; [reflexivity|]. split; [lra|lra].
    + intros [[E [B _]]|[[z [E1 [E2 E3]]]|[z [E1 [E2 E3]]]]]; [specialize (B lo eq_refl); lra|injection E1 as <-; lra|discriminate].
    + intros E. left. split; [exact E|]. split; intros z Ez; [injection Ez as <-; lra|discriminate].
    + intros [[E _]|[[z [E1 [E2 E3]]]|[z [E1 [E2 E3]]]]]; [exact E|injection E1 as <-; lra|discriminate].
  - destruct (Rlt_dec hi s) as [L2|L2]; cbn [fst]; split.
    + intros E. right; right. exists hi. split; [reflexivity|]. split; [lra|lra].
    + intros [[E [_ B]]|[[z [E1 [E2 E3]]]|[z [E1 [E2 E3]]]]]; [specialize (B hi eq_refl); lra|discriminate|injection E1 as <-; lra].
    + intros E. left. split; [exact E|]. split; intros z Ez; [discriminate|injection Ez as <-; lra].
    + intros [[E _]|[[z [E1 [E2 E3]]]|[z [E1 [E2 E3]]]]]; [exact E|discriminate|injection E1 as <-; lra].
  - cbn [fst]. split; [intros E; left; split; [exact E|]; split; intros z Ez; discriminate|].
    intros [[E _]|[[z [E1 _]]|[z [E1 _]]]]; [exact E|discriminate|discriminate].
Qed.
Print Assumptions C163_fixed_points.

(** If an observed share is below the lower bound, which is not checked, there is no fixed point: the mean utility of its product falls by at
    least the same amount in each evaluation, and neither the simple routine nor SQUAREM ever reports convergence. *)
Theorem C163_shares_below_bounds :
  forall m a safe bounds shares lo j, valid_market m -> proper bounds -> (j < mJ m)%nat -> fst bounds = Some lo -> 0 < shares j < lo ->
  let step := ln (lo / shares j) * (if Nat.eqb (mH m) 0 then 1 else 1 - rho m j) in
  0 < step /\
  (forall x n, Nat.iter n (contraction m a safe bounds shares) x j <= x j - INR n * step) /\
  (forall atol budget start o, 0 < atol <= step ->
     routine (delta_function m a safe bounds shares) (mk_tol (Num atol) (Num 0) infinity_norm) budget (flat (mJ m) start) o -> o_converged o = false).
Proof.
  intros m a safe bounds shares lo j V P Hj E S step.
  assert (M := fun x => below_moves m a safe bounds shares lo x j V P Hj E S). fold step in M.
  assert (L : 0 < ln (lo / shares j)).
  { rewrite <- ln_1. apply ln_increasing; [lra|]. apply (Rmult_lt_reg_r (shares j)); [lra|]. unfold Rdiv. rewrite Rmult_assoc, Rinv_l by lra. lra. }
  assert (St : 0 < step) by (apply Rmult_lt_0_compat; [exact L|apply dampened; assumption]).
  split; [exact St|]. split; [intros x n; apply drift; exact M|].
  intros atol budget start o A R. apply (never_converges m a safe bounds shares atol budget start o j); try tauto.
  intros x. specialize (M x). rewrite Rabs_left by lra. lra.
Qed.
Print Assumptions C163_shares_below_bounds.

(** Likewise for shares above the upper bound. *)
Theorem C163_shares_above_bounds :
  forall m a safe bounds shares hi j, valid_market m -> valid_agents a -> proper bounds -> (j < mJ m)%nat -> snd bounds = Some hi -> 0 < hi < shares j ->
  let step := ln (shares j / hi) * (if Nat.eqb (mH m) 0 then 1 else 1 - rho m j) in
  0 < step /\
  (forall x, x j + step <= contraction m a safe bounds shares x j) /\
  (forall atol budget start o, 0 < atol <= step ->
     routine (delta_function m a safe bounds shares) (mk_tol (Num atol) (Num 0) infinity_norm) budget (flat (mJ m) start) o -> o_converged o = false).
Proof.
  intros m a safe bounds shares hi j V A P Hj E S step.
  assert (M := fun x => above_moves m a safe bounds shares hi x j V A P Hj E S). fold step in M.
  assert (L : 0 < ln (shares j / hi)).
  { rewrite <- ln_1. apply ln_increasing; [lra|]. apply (Rmult_lt_reg_r hi); [lra|]. unfold Rdiv. rewrite Rmult_assoc, Rinv_l by lra. lra. }
  assert (St : 0 < step) by (apply Rmult_lt_0_compat; [exact L|apply dampened; assumption]).
  split; [exact St|]. split; [exact M|].
  intros atol budget start o Ha R. apply (never_converges m a safe bounds shares atol budget start o j); try tauto.
  intros x. specialize (M x). rewrite Rabs_right by lra. lra.
Qed.
Print Assumptions C163_shares_above_bounds.

(** Lower bounds for costs and shares: a cost of one half is raised to one, its row is zero, and a share of one thousandth is too small for a
    bound of one hundredth. *)
Definition small_market : market := mk_market 1 0 (fun _ => O) false (fun _ => 0) 1.
Definition small_agents : agents := mk_agents 1 (fun _ => 1) (fun _ _ => 0).
Example C163_applies :
  fst (coerce_bounds (fun _ => [NaN]) (Some [Number (Num 1); NoBound])) = Bounds (Num 1) PInf /\
  separate (Number (Num 1)) NoBound /\
  outside (Some 1, None) (1 - / 2) /\ proper (Some 1, @None R) /\
  clip_cost (Some 1, None) (1 - / 2) = 1 /\ valid_market small_market /\ valid_agents small_agents /\ 0 < / 1000 < / 100 /\
  0 < ln (/ 100 / / 1000) * (if Nat.eqb (mH small_market) 0 then 1 else 1 - rho small_market 0).
Proof.
  split; [reflexivity|]. split; [exact I|]. split; [left; exists 1; split; [reflexivity|lra]|]. split; [intros lo hi E; discriminate|].
  split; [unfold clip_cost; cbn; rewrite Rmax_right; lra|].
  assert (V : valid_market small_market) by (constructor; cbn; intros; try lia; try lra; try congruence; reflexivity).
  split; [exact V|].
  split; [split; [intros; cbn; lra|exists 0%nat; cbn; split; [lia|lra]]|]. split; [lra|].
  exact (proj1 (C163_shares_below_bounds small_market small_agents true (Some (/ 100), None) (fun _ => / 1000) (/ 100) 0 V ltac:(intros lo hi E; discriminate) ltac:(cbn; lia) eq_refl ltac:(lra))).
Qed.
