(** The zeta-markup contraction with plain logit demand. *)
From Coq Require Import Reals ZArith Lra Lia List Bool Arith.
From Verif Require Import Base FltModel IterModel DemandModel DemandSpec DemandProofs DemandDeriv DemandElim SupplyModel SupplySpec SupplyProofs
  WelfareModel WelfareProofs PostModel ConvModel ConvRun EquilModel EquilSpec EquilProofs EquilLimits EquilGlobal EquilRun.
Local Open Scope R_scope.

Section Market.
Variables (M : full_market) (a : R).
Hypothesis L : plain_logit M a.
Notation J := (mJ (fm M)).
Notation eps := (eps_scale (fm M)).
Notation W := (sumn (fI M) (fw M)).

Lemma eps_pos : 0 < eps.
Proof. apply (vm_eps _ (pl_valid M a L)). Qed.

Lemma plain_mu x i j : update_mu M x i j = 0.
Proof. unfold update_mu, compute_mu. rewrite (pl_random M a L). reflexivity. Qed.

Lemma plain_delta x y j : (j < J)%nat -> update_delta M x j / eps = update_delta M y j / eps - a * (x j - y j).
Proof.
  intros Hj. destruct (pl_slopes M a L) as [slope [HS HB]]. assert (E0 := eps_pos). unfold update_delta.
  assert (G : forall z, sumn (fK1 M) (fun k => if uses (fX1 M k)
      then fbeta M k * (ev (fX1 M k) j (z j) - ev (fX1 M k) j (var0 M j)) else 0) = - (a * eps) * (z j - var0 M j)).
  { intros z. rewrite <- HB, <- sumn_scal_r. apply sumn_ext. intros k Hk.
    destruct (uses (fX1 M k)) eqn:U; [|ring]. destruct (HS k j (z j) (var0 M j) Hk U Hj) as [-> _]. ring. }
  rewrite !G. field. lra.
Qed.

Lemma plain_derivatives x i j : (j < J)%nat -> utility_derivatives M false x i j = - a.
Proof.
  intros Hj. destruct (pl_slopes M a L) as [slope [HS HB]]. assert (E0 := eps_pos).
  unfold utility_derivatives. rewrite eps_div, (pl_random M a L). cbn [sumn].
  rewrite (sumn_ext _ _ (fun k => if uses (fX1 M k) then fbeta M k * slope k else 0)).
  - rewrite HB. field. lra.
  - intros k Hk. destruct (uses (fX1 M k)) eqn:U; [|ring]. destruct (HS k j (x j) (x j) Hk U Hj) as [_ ->]. ring.
Qed.

Variable costs : nat -> R.

(** Exponentiated utilities at prices equal to costs. *)
Definition at_cost (j : nat) : R := exp (update_delta M costs j / eps).

Lemma at_cost_pos k : (k < J)%nat -> 0 < at_cost k.
Proof. intros _. apply exp_pos. Qed.

Definition margins (x : nat -> R) (j : nat) : R := x j - costs j.

Lemma plain_probs x i j : (j < J)%nat ->
  probs (fm M) (update_delta M x) (update_mu M x) i j = share_at J at_cost a (margins x) j.
Proof.
  intros Hj. unfold probs.
  destruct (probabilities_are_logit (fm M) true (update_delta M x) (update_mu M x i) (pl_valid M a L)) as [A _].
  rewrite (A (pl_nests M a L) j Hj). unfold logit, all_goods, share_at, all_weights. cbn [indR].
  assert (U : forall k, (k < J)%nat -> exp ((update_delta M x k + update_mu M x i k) / eps) = weight_of at_cost a (margins x) k).
  { intros k Hk. rewrite plain_mu, Rplus_0_r. unfold weight_of, at_cost, margins. rewrite <- exp_plus.
    rewrite (plain_delta x costs k Hk). reflexivity. }
  rewrite (U j Hj). unfold Rdiv. f_equal. f_equal. f_equal. apply sumn_ext. intros k Hk. apply U; assumption.
Qed.

Lemma plain_shares x j : (j < J)%nat -> shares_at M x j = share_at J at_cost a (margins x) j * W.
Proof.
  intros Hj. unfold shares_at. rewrite <- sumn_scal. apply sumn_ext. intros i Hi. rewrite plain_probs by assumption. reflexivity.
Qed.

Lemma plain_lamda x j : (j < J)%nat -> lamda_at M x j = - a * W * share_at J at_cost a (margins x) j.
Proof.
  intros Hj. unfold lamda_at, capital_lamda. rewrite (pl_nests M a L). cbn [Nat.eqb].
  rewrite (sumn_ext _ _ (fun i => - a * share_at J at_cost a (margins x) j * fw M i)).
  - rewrite sumn_scal. ring.
  - intros i Hi. rewrite plain_probs, plain_derivatives by assumption. ring.
Qed.

Lemma plain_gamma x j k : (j < J)%nat -> (k < J)%nat ->
  gamma_at M x j k = - a * W * share_at J at_cost a (margins x) j * share_at J at_cost a (margins x) k.
Proof.
  intros Hj Hk. unfold gamma_at, capital_gamma. rewrite (pl_nests M a L). cbn [Nat.eqb].
  rewrite (sumn_ext _ _ (fun i => - a * share_at J at_cost a (margins x) j * share_at J at_cost a (margins x) k * fw M i)).
  - rewrite sumn_scal. ring.
  - intros i Hi. rewrite !plain_probs, plain_derivatives by assumption. ring.
Qed.

Lemma plain_lamda_neg x j : (j < J)%nat -> lamda_at M x j < 0.
Proof.
  intros Hj. rewrite plain_lamda by assumption. assert (P := share_pos J at_cost a at_cost_pos (margins x) j Hj).
  assert (A := pl_dislike M a L). assert (B := pl_weights M a L).
  assert (0 < a * W * share_at J at_cost a (margins x) j) by (apply Rmult_lt_0_compat; [apply Rmult_lt_0_compat|]; assumption).
  lra.
Qed.

Lemma share_le_one m k : (k < J)%nat -> share_at J at_cost a m k <= 1.
Proof.
  intros Hk. assert (S := shares_sum J at_cost a at_cost_pos m). assert (Wg := weights_ge J at_cost a at_cost_pos m).
  assert (0 < / all_weights J at_cost a m) by (apply Rinv_0_lt_compat; lra).
  assert (share_at J at_cost a m k <= sumn J (share_at J at_cost a m)); [|lra].
  apply (sumn_ge_term J (share_at J at_cost a m)); [|assumption]. intros l Hl. left. apply share_pos; [apply at_cost_pos|assumption].
Qed.

Lemma plain_weights x j : (j < J)%nat -> price_weights M x j <> 0 /\ Rabs (price_weights M x j) <= a * W.
Proof.
  intros Hj. assert (N := plain_lamda_neg x j Hj). unfold price_weights. split.
  - apply Rabs_no_R0. lra.
  - rewrite Rabs_Rabsolu, Rabs_left by assumption. rewrite plain_lamda by assumption.
    assert (P := share_le_one (margins x) j Hj). assert (A := pl_dislike M a L). assert (B := pl_weights M a L).
    assert (0 < a * W) by (apply Rmult_lt_0_compat; assumption).
    assert (a * W * share_at J at_cost a (margins x) j <= a * W * 1) by (apply Rmult_le_compat_l; lra). lra.
Qed.

Variable ids : list Z.
Definition owner (j : nat) : Z := nth j ids 0%Z.
Notation O := (firm_ownership ids).
Notation T := (price_contraction M O costs).
Notation nxt := (next J owner at_cost a).

Lemma contraction_is_next x j : (j < J)%nat -> T x j = costs j + nxt (margins x) j.
Proof.
  intros Hj. unfold price_contraction, zeta. assert (N := plain_lamda_neg x j Hj).
  unfold lamda_inv. destruct (Req_EM_T (lamda_at M x j) 0) as [E0|_]; [lra|]. f_equal.
  assert (P := share_pos J at_cost a at_cost_pos (margins x) j Hj).
  assert (A := pl_dislike M a L). assert (B := pl_weights M a L).
  rewrite (sumn_ext J _ (fun k => - a * W * share_at J at_cost a (margins x) j
      * (same owner k j * share_at J at_cost a (margins x) k * margins x k))).
  - rewrite sumn_scal, plain_shares, plain_lamda by assumption. unfold next, firm_margin. field. repeat split; lra.
  - intros k Hk. rewrite plain_gamma by assumption. change (O k j) with (same owner k j). change (margins x k) with (x k - costs k). ring.
Qed.

Lemma contraction_margins x j : (j < J)%nat -> margins (T x) j = nxt (margins x) j.
Proof. intros Hj. unfold margins at 1. rewrite contraction_is_next by assumption. ring. Qed.

Lemma iterates_are_steps start n : forall j, (j < J)%nat ->
  margins (Nat.iter n T start) j = steps J owner at_cost a n (margins start) j.
Proof.
  induction n as [|n IH]; intros j Hj; [reflexivity|]. cbn [steps Nat.iter nat_rect].
  change (margins (T (Nat.iter n T start)) j = nxt (steps J owner at_cost a n (margins start)) j).
  rewrite contraction_margins by assumption. apply next_ext. exact IH.
Qed.

Lemma plain_good x : good_columns M x.
Proof.
  destruct (pl_slopes M a L) as [slope [HS _]]. split.
  - intros k j U Hk Hj. destruct (HS k j (x j) (x j) Hk U Hj) as [_ ->].
    assert (E : forall t, ev (fX1 M k) j t = ev (fX1 M k) j (x j) + slope k * (t - x j)).
    { intros t. destruct (HS k j t (x j) Hk U Hj) as [Q _]. lra. }
    apply (dlim_ext (fun t => ev (fX1 M k) j (x j) + slope k * (t - x j))).
    + intros t. symmetry. apply E.
    + apply dlim_eq with (0 + slope k * (1 - 0)); [ring|].
      apply (dlim_plus (fun _ => ev (fX1 M k) j (x j))); [apply dlim_const|].
      apply (dlim_scal (slope k) (fun t => t - x j)).
      apply (derivable_pt_lim_minus (fun t => t) (fun _ => x j)); [apply dlim_id|apply dlim_const].
  - intros k j _ Hk. rewrite (pl_random M a L) in Hk. lia.
Qed.

Lemma owner_diag j : (j < J)%nat -> O j j = 1.
Proof. intros _. unfold firm_ownership. rewrite Z.eqb_refl. reflexivity. Qed.

Lemma owner_sym j k : (j < J)%nat -> (k < J)%nat -> O j k = O k j.
Proof. intros _ _. unfold firm_ownership. rewrite Z.eqb_sym. reflexivity. Qed.

Lemma bertrand_iff_fixed x : bertrand J O costs (shares_at M) x <-> fixed J owner at_cost a (margins x).
Proof.
  rewrite (bertrand_iff_markup M O costs x (pl_valid M a L) (plain_good x) owner_diag).
  rewrite <- (zeta_fixed_iff M O costs x owner_sym owner_diag).
  - unfold fixed. split; intros H j Hj; specialize (H j Hj).
    + rewrite contraction_is_next in H by assumption. unfold margins at 2. lra.
    + rewrite contraction_is_next by assumption. unfold margins at 2 in H. lra.
  - intros j Hj. assert (N := plain_lamda_neg x j Hj). lra.
Qed.

Lemma fixed_iff_bertrand x : (forall j, (j < J)%nat -> T x j = x j) <-> bertrand J O costs (shares_at M) x.
Proof.
  rewrite bertrand_iff_fixed. unfold fixed. split; intros H j Hj; specialize (H j Hj).
  - rewrite contraction_is_next in H by assumption. unfold margins at 2. lra.
  - rewrite contraction_is_next by assumption. unfold margins at 2 in H. lra.
Qed.

Notation A0 := (pl_dislike M a L).

Lemma equilibrium_exists : exists p, bertrand J O costs (shares_at M) p.
Proof.
  destruct (fixed_exists J owner at_cost a A0 at_cost_pos) as [m Hm].
  exists (fun j => costs j + m j). apply bertrand_iff_fixed. intros j Hj.
  assert (E : forall k, (k < J)%nat -> margins (fun j => costs j + m j) k = m k) by (intros; unfold margins; ring).
  rewrite (E j Hj), <- (Hm j Hj). apply next_ext. exact E.
Qed.

Lemma equilibrium_unique p q : bertrand J O costs (shares_at M) p -> bertrand J O costs (shares_at M) q ->
  forall j, (j < J)%nat -> p j = q j.
Proof.
  intros P Q j Hj. apply bertrand_iff_fixed in P. apply bertrand_iff_fixed in Q.
  assert (X := fixed_unique J owner at_cost a A0 at_cost_pos _ _ P Q j Hj). unfold margins in X. lra.
Qed.

Lemma equilibrium_margin p j : bertrand J O costs (shares_at M) p -> (j < J)%nat -> costs j + / a < p j.
Proof.
  intros P Hj. apply bertrand_iff_fixed in P.
  destruct (fixed_share J owner at_cost a A0 at_cost_pos _ j P Hj) as [Pm [_ G]].
  assert (A := A0). assert (/ a < margins p j).
  { apply Rmult_lt_reg_l with a; [assumption|]. rewrite Rinv_r by lra. exact G. }
  unfold margins in *. lra.
Qed.

Lemma equilibrium_common p j k : bertrand J O costs (shares_at M) p -> (j < J)%nat -> (k < J)%nat ->
  owner j = owner k -> p j - costs j = p k - costs k.
Proof.
  intros P Hj Hk E. apply bertrand_iff_fixed in P. symmetry.
  apply (fixed_common J owner at_cost a _ j P Hj k Hk). symmetry. assumption.
Qed.

Lemma iterates_converge p start : bertrand J O costs (shares_at M) p ->
  prices_converge J (fun n => Nat.iter n T start) p.
Proof.
  intros P j Hj. apply bertrand_iff_fixed in P.
  assert (C := steps_converge_anywhere J owner at_cost a A0 at_cost_pos (margins start) _ j P Hj).
  replace (p j) with (costs j + margins p j) by (unfold margins; ring).
  apply (cv_ext (fun n => costs j + steps J owner at_cost a n (margins start) j)).
  - intros n. rewrite <- iterates_are_steps by assumption. unfold margins. ring.
  - apply (CV_plus (fun _ => costs j)); [apply cv_const|exact C].
Qed.

Lemma iterates_rise start : (forall j, (j < J)%nat -> costs j <= start j) ->
  (forall j, (j < J)%nat -> start j <= T start j) ->
  forall n j, (j < J)%nat -> Nat.iter n T start j <= Nat.iter (S n) T start j.
Proof.
  intros H0 H1 n j Hj.
  assert (U : steps J owner at_cost a n (margins start) j <= steps J owner at_cost a (S n) (margins start) j).
  { apply (steps_up J owner at_cost a A0 at_cost_pos); [| |assumption].
    - intros k Hk. specialize (H0 k Hk). unfold margins. lra.
    - intros k Hk. rewrite <- contraction_margins by assumption. specialize (H1 k Hk). unfold margins. lra. }
  rewrite <- !iterates_are_steps in U by assumption. unfold margins in U. lra.
Qed.

Lemma rising_below p start : bertrand J O costs (shares_at M) p -> (forall j, (j < J)%nat -> costs j <= start j) ->
  (forall j, (j < J)%nat -> start j <= T start j) ->
  forall n j, (j < J)%nat -> start j <= Nat.iter n T start j <= p j.
Proof.
  intros P H0 H1 n j Hj. assert (R := iterates_rise start H0 H1). split.
  - induction n as [|n IH]; [apply Rle_refl|]. eapply Rle_trans; [exact IH|apply R; assumption].
  - apply (growing_ineq (fun n => Nat.iter n T start j)).
    + intros k. apply R; assumption.
    + apply iterates_converge; assumption.
Qed.

(* ---------- the routine ---------- *)

Lemma margins_ext x y : (forall k, (k < J)%nat -> x k = y k) -> forall j, (j < J)%nat -> margins x j = margins y j.
Proof. intros E j Hj. unfold margins. rewrite E by assumption. reflexivity. Qed.

Lemma share_ext m n j : (forall k, (k < J)%nat -> m k = n k) -> (j < J)%nat ->
  share_at J at_cost a m j = share_at J at_cost a n j.
Proof.
  intros E Hj. unfold share_at, all_weights, weight_of. rewrite (E j Hj). f_equal. f_equal. apply sumn_ext.
  intros k Hk. rewrite (E k Hk). reflexivity.
Qed.

Lemma prices_function_flat log i e x :
  prices_function M O costs log i e (flat J x) = (flat J (T x), Some (flat J (price_weights M x))).
Proof.
  unfold prices_function. rewrite flat_finite. f_equal; [|f_equal]; apply flat_ext; intros j Hj.
  - rewrite !contraction_is_next by assumption. f_equal. apply next_ext. apply margins_ext. intros k Hk. apply column_flat; assumption.
  - unfold price_weights. rewrite !plain_lamda by assumption. do 2 f_equal. apply share_ext; [|assumption].
    apply margins_ext. intros k Hk. apply column_flat; assumption.
Qed.

Lemma routine_converges prices atol rtol : 0 < atol -> 0 <= rtol ->
  exists N, forall budget, (N < budget)%nat ->
  exists o, equilibrium_prices M O costs (mk_tol (Num atol) (Num rtol) infinity_norm) budget prices = Some o /\
    o_converged o = true /\ (s_evaluations (o_st o) <= N)%nat.
Proof.
  intros Ha Hr. unfold equilibrium_prices. set (start := match prices with Some p => p | None => var0 M end).
  destruct equilibrium_exists as [p P].
  apply (weighted_converges J T (price_weights M) start _ prices_function_flat p (iterates_converge p start P) (a * W)).
  - apply Rmult_lt_0_compat; [apply A0|apply (pl_weights M a L)].
  - intros x j Hj. apply plain_weights. assumption.
  - assumption.
  - assumption.
Qed.

Lemma routine_accurate prices p eta : bertrand J O costs (shares_at M) p -> 0 < eta ->
  exists atol0, 0 < atol0 /\ forall atol budget o, 0 < atol <= atol0 ->
  equilibrium_prices M O costs (mk_tol (Num atol) (Num 0) infinity_norm) budget prices = Some o ->
  o_converged o = true -> forall j, (j < J)%nat -> Rabs (column (o_x o) j - p j) <= eta.
Proof.
  intros P He. unfold equilibrium_prices. set (start := match prices with Some p => p | None => var0 M end).
  apply (weighted_accurate J T (price_weights M) start _ prices_function_flat p (iterates_converge p start P)).
  - intros x j Hj. apply plain_weights. assumption.
  - intros x F. apply fixed_iff_bertrand in F. apply equilibrium_unique; assumption.
  - assumption.
Qed.
End Market.
