(** Property theorems about demand: C01 - C08.  The specification is in DemandSpec.v. *)
From Coq Require Import Reals Lra Lia List Bool Arith String.
From Verif Require Import Base DemandModel DemandSpec DemandProofs DemandShares DemandElim.
Import ListNotations.
Local Open Scope R_scope.

(** C01: probabilities are those of (nested) logit with V = (delta + mu) / epsilon_scale ... *)
Theorem C01_probabilities_are_logit :
  forall m safe delta mu, valid_market m ->
  let V := fun j => (delta j + mu j) / eps_scale m in
  let p := fst (probabilities_linear m full_choice safe delta mu) in
  (mH m = O -> forall j, (j < mJ m)%nat -> p j = logit (mJ m) all_goods true V j) /\
  (mH m <> O -> forall j, (j < mJ m)%nat ->
     p j = nested (mJ m) (mH m) (gid m) (grho m) all_goods true V j).
Proof. exact probabilities_are_logit. Qed.
Print Assumptions C01_probabilities_are_logit.

(** ... and they are proper: strictly positive, with something left for the outside good. *)
Theorem C01_probabilities_proper :
  forall m safe delta mu, valid_market m ->
  (forall j, (j < mJ m)%nat -> 0 < fst (probabilities_linear m full_choice safe delta mu) j) /\
  sumn (mJ m) (fst (probabilities_linear m full_choice safe delta mu)) < 1.
Proof. exact probabilities_proper. Qed.
Print Assumptions C01_probabilities_proper.

(** Two nests with different nesting parameters and three products. *)
Definition nest_market : market :=
  mk_market 3 2 (fun j => match j with O => O | _ => 1%nat end) true
            (fun h => match h with O => / 4 | _ => / 2 end) 1.
Example nest_market_valid : valid_market nest_market.
Proof.
  constructor; cbn; intros; try lia; try lra; try congruence.
  - destruct j; lia.
  - destruct h; lra.
Qed.
Definition plain_market : market := mk_market 2 0 (fun _ => O) false (fun _ => 0) 2.
Example plain_market_valid : valid_market plain_market.
Proof. constructor; cbn; intros; try lia; try lra; congruence. Qed.

(** C02: the overflow-safe computation is exact, also under elimination and limited availability. *)
Theorem C02_safe_rescaling_exact :
  forall m c delta mu, valid_market m ->
  (forall j, (j < mJ m)%nat ->
     fst (probabilities_linear m c true delta mu) j = fst (probabilities_linear m c false delta mu) j) /\
  match snd (probabilities_linear m c true delta mu), snd (probabilities_linear m c false delta mu) with
  | Some x, Some y => forall j, (j < mJ m)%nat -> x j = y j
  | None, None => True
  | _, _ => False
  end.
Proof. exact safe_is_exact. Qed.
Print Assumptions C02_safe_rescaling_exact.

(** C03: the closed form inverts observed shares. *)
Theorem C03_closed_form_inverts :
  forall m safe shares mu j, valid_market m ->
  (forall k, (k < mJ m)%nat -> 0 < shares k) -> sumn (mJ m) shares < 1 ->
  (forall k, mu k = 0) -> (j < mJ m)%nat ->
  fst (probabilities_linear m full_choice safe (closed_form_delta m shares) mu) j = shares j.
Proof. exact closed_form_inverts. Qed.
Print Assumptions C03_closed_form_inverts.

Example C03_hypotheses :
  (forall k, (k < mJ nest_market)%nat -> 0 < (fun _ => / 4) k) /\
  sumn (mJ nest_market) (fun _ => / 4) < 1.
Proof. cbn; split; intros; lra. Qed.

(** C04: fixed points of the contraction are the mean utilities that match observed shares.
    Clipping at share bounds is harmless when observed shares lie strictly inside the bounds. *)
Theorem C04_fixed_point_iff_shares_match :
  forall m a safe bounds shares x,
  valid_market m -> valid_agents a ->
  (forall j, (j < mJ m)%nat -> 0 < shares j) ->
  match fst bounds with
  | Some lb => 0 < lb /\ forall j, (j < mJ m)%nat -> lb < shares j | None => True end ->
  match snd bounds with
  | Some ub => 0 < ub /\ forall j, (j < mJ m)%nat -> shares j < ub | None => True end ->
  ((forall j, (j < mJ m)%nat -> contraction m a safe bounds shares x j = x j) <->
   (forall j, (j < mJ m)%nat -> market_shares m a safe x j = shares j)).
Proof. exact fixed_point_matches. Qed.
Print Assumptions C04_fixed_point_iff_shares_match.

Definition two_agents : agents :=
  mk_agents 2 (fun i => match i with O => / 3 | _ => 2 / 3 end) (fun i j => INR (i + j)).
Example two_agents_valid : valid_agents two_agents.
Proof.
  split; [intros [|]; cbn; lra|]. exists O. cbn. split; [lia|lra].
Qed.
Example C04_bounds :
  match fst (Some (/ 1000), @None R) with
  | Some lb => 0 < lb /\ forall j, (j < 3)%nat -> lb < (fun _ : nat => / 4) j | None => True end.
Proof. cbn; split; intros; lra. Qed.

(** Matching predicted shares means matching the (nested) logit shares averaged over agents. *)
Theorem C04_shares_are_averaged_probabilities :
  forall m a safe x j, valid_market m -> (j < mJ m)%nat ->
  market_shares m a safe x j =
  sumn (aI a) (fun i =>
    (if Nat.eqb (mH m) 0
     then logit (mJ m) all_goods true (fun k => (x k + amu a i k) / eps_scale m) j
     else nested (mJ m) (mH m) (gid m) (grho m) all_goods true (fun k => (x k + amu a i k) / eps_scale m) j)
    * aw a i).
Proof. exact shares_are_averaged. Qed.
Print Assumptions C04_shares_are_averaged_probabilities.

(** C04: shares are reported as clipped exactly if they are outside the bounds. *)
Theorem C04_clipping_reported :
  forall m a safe (bounds : option R * option R) x j,
  (forall lb ub, bounds = (Some lb, Some ub) -> lb <= ub) ->
  clipped_shares m a safe bounds x j = true <->
  (exists lb, fst bounds = Some lb /\ market_shares m a safe x j < lb) \/
  (exists ub, snd bounds = Some ub /\ ub < market_shares m a safe x j).
Proof. intros m a safe bounds x j. exact (clip_flag bounds (market_shares m a safe x j)). Qed.
Print Assumptions C04_clipping_reported.

Example C04_clipping_applies :
  (forall lb ub, (Some (/ 10), Some (9 / 10)) = (Some lb, Some ub) -> lb <= ub) /\
  snd (clip_share (Some (/ 10), Some (9 / 10)) (/ 20)) = true /\
  snd (clip_share (Some (/ 10), Some (9 / 10)) (/ 2)) = false.
Proof.
  assert (Q : forall lb ub, (Some (/ 10), Some (9 / 10)) = (Some lb, Some ub) -> lb <= ub).
  { intros lb ub E. injection E as <- <-. lra. }
  split; [exact Q|]. split.
  - apply (clip_flag _ _ Q). left. exists (/ 10). split; [reflexivity|lra].
  - destruct (snd (clip_share (Some (/ 10), Some (9 / 10)) (/ 2))) eqn:E; [|reflexivity].
    apply (clip_flag _ _ Q) in E. destruct E as [[q [E L]]|[q [E L]]]; injection E as <-; lra.
Qed.

(** C05: at most one mean utility vector yields given shares (nesting parameters in [0, 1)). *)
Theorem C05_delta_unique :
  forall m a safe x y,
  valid_market m -> valid_agents a ->
  (mH m <> O -> forall h, (h < mH m)%nat -> 0 <= grho m h) ->
  (forall j, (j < mJ m)%nat -> market_shares m a safe x j = market_shares m a safe y j) ->
  forall j, (j < mJ m)%nat -> x j = y j.
Proof. exact shares_injective. Qed.
Print Assumptions C05_delta_unique.

Example C05_rho_hypothesis : mH nest_market <> O -> forall h, (h < mH nest_market)%nat -> 0 <= grho nest_market h.
Proof. intros _ h _. cbn. destruct h; lra. Qed.

(** C06: nonexpansive and monotone, if epsilon_scale is at least one ... *)
Theorem C06_contraction_nonexpansive :
  forall m a safe shares x y d,
  valid_market m -> valid_agents a ->
  (mH m <> O -> forall h, (h < mH m)%nat -> 0 <= grho m h) ->
  1 <= eps_scale m ->
  (forall k, (k < mJ m)%nat -> Rabs (x k - y k) <= d) ->
  forall j, (j < mJ m)%nat ->
  Rabs (contraction m a safe (None, None) shares x j - contraction m a safe (None, None) shares y j) <= d.
Proof. exact contraction_nonexpansive. Qed.
Print Assumptions C06_contraction_nonexpansive.

Theorem C06_contraction_monotone :
  forall m a safe shares x y,
  valid_market m -> valid_agents a ->
  (mH m <> O -> forall h, (h < mH m)%nat -> 0 <= grho m h) ->
  1 <= eps_scale m ->
  (forall k, (k < mJ m)%nat -> x k <= y k) ->
  forall j, (j < mJ m)%nat ->
  contraction m a safe (None, None) shares x j <= contraction m a safe (None, None) shares y j.
Proof. exact contraction_monotone. Qed.
Print Assumptions C06_contraction_monotone.

Example C06_epsilon : 1 <= eps_scale plain_market /\ 1 <= eps_scale nest_market.
Proof. cbn; lra. Qed.

(** ... but not in general: with epsilon_scale = 1/4 the map moves two points at distance one
    further apart. *)
Theorem C06_small_epsilon_refuted :
  exists m a shares x y, valid_market m /\ valid_agents a /\ (0 < shares O < 1) /\ mJ m = 1%nat /\
    Rabs (x O - y O) <= 1 /\
    1 < Rabs (contraction m a true (None, None) shares x O - contraction m a true (None, None) shares y O).
Proof. exact small_epsilon_refuted. Qed.
Print Assumptions C06_small_epsilon_refuted.

(** C07: the nonlinear formulations are accepted but never used. *)
Theorem C07_fp_type_refuted :
  valid_fp_type true "nonlinear" = true /\ compute_delta_branch "nonlinear" = LinearFP false /\
  valid_fp_type true "safe_nonlinear" = true /\ compute_delta_branch "safe_nonlinear" = LinearFP true.
Proof. repeat split; reflexivity. Qed.
Print Assumptions C07_fp_type_refuted.

(** Exactly four types are accepted, and the nonlinear ones only if errors are not rescaled. *)
Theorem C07_accepted_types :
  forall e s, valid_fp_type e s = true <->
    (s = "linear" \/ s = "safe_linear" \/ (e = true /\ (s = "nonlinear" \/ s = "safe_nonlinear")))%string.
Proof.
  intros e s. unfold valid_fp_type. cbn [existsb].
  destruct (String.eqb_spec s "linear"), (String.eqb_spec s "safe_linear"), (String.eqb_spec s "nonlinear"),
    (String.eqb_spec s "safe_nonlinear"), e; subst; cbn; split; try discriminate; intuition congruence.
Qed.
Print Assumptions C07_accepted_types.

Theorem C07_always_linear :
  forall e s, valid_fp_type e s = true -> exists safe, compute_delta_branch s = LinearFP safe.
Proof. exact always_linear. Qed.
Print Assumptions C07_always_linear.

(** The two linear types are honoured. *)
Theorem C07_linear_honoured :
  compute_delta_branch "linear" = LinearFP false /\ compute_delta_branch "safe_linear" = LinearFP true.
Proof. split; reflexivity. Qed.
Print Assumptions C07_linear_honoured.

(** The dead nonlinear code is the linear contraction in exponentiated form without nesting, and
    also with nesting in its unsafe version ... *)
Theorem C07_nonlinear_equivalent :
  forall m a safe shares x j,
  valid_market m -> valid_agents a -> eps_scale m = 1 -> (mH m <> O -> safe = false) ->
  (forall k, (k < mJ m)%nat -> 0 < shares k) -> (j < mJ m)%nat ->
  nonlinear_contraction m a safe shares (fun k => exp (x k)) j
  = exp (contraction m a safe (None, None) shares x j).
Proof. exact nonlinear_equivalent. Qed.
Print Assumptions C07_nonlinear_equivalent.

(** ... but with nesting its safe version would compute something else. *)
Theorem C07_safe_nonlinear_nested_refuted :
  exists m a shares x, valid_market m /\ valid_agents a /\ eps_scale m = 1 /\
    (forall k, 0 < shares k) /\ (0 < mJ m)%nat /\
    nonlinear_contraction m a true shares (fun k => exp (x k)) O
    <> exp (contraction m a true (None, None) shares x O).
Proof. exact safe_nonlinear_nested_refuted. Qed.
Print Assumptions C07_safe_nonlinear_nested_refuted.

(** C08: eliminating a product is the same as its not existing. *)
Theorem C08_elimination_is_absence :
  forall m safe delta mu k, valid_market m -> (1 < mJ m)%nat -> (k < mJ m)%nat ->
  let p := fst (probabilities_linear m (mk_choice false None (Some k) None) safe delta mu) in
  let without := mk_market (pred (mJ m)) (mH m) (fun j => gid m (skip k j)) (rho_multi m) (grho m) (eps_scale m) in
  p k = 0 /\
  forall j, (j < pred (mJ m))%nat ->
    p (skip k j) = fst (probabilities_linear without full_choice safe
                          (fun i => delta (skip k i)) (fun i => mu (skip k i))) j.
Proof. exact eliminate_is_drop. Qed.
Print Assumptions C08_elimination_is_absence.

(** Whatever is removed (one product, all products with an ID, or products that are unavailable to
    the agent), the remaining products and the outside good weakly gain. *)
Theorem C08_remaining_gain :
  forall m safe delta mu (avail : option (nat -> bool)) el ids,
  valid_market m ->
  (mH m <> O -> forall h, (h < mH m)%nat -> 0 <= grho m h) ->
  let left_in := fun j =>
    match avail with Some b => b j | None => true end
    && match el with Some k => negb (Nat.eqb j k) | None => true end
    && match ids with Some mask => negb (mask j) | None => true end in
  let c := mk_choice false (option_map (fun b j => indR (b j)) avail) el ids in
  let p0 := fst (probabilities_linear m full_choice safe delta mu) in
  let p := fst (probabilities_linear m c safe delta mu) in
  (forall j, (j < mJ m)%nat ->
     (left_in j = true -> p0 j <= p j) /\ (left_in j = false -> p j = 0)) /\
  1 - sumn (mJ m) p0 <= 1 - sumn (mJ m) p.
Proof. exact elimination_gain. Qed.
Print Assumptions C08_remaining_gain.

(** Without the outside good, inside probabilities sum to one. *)
Theorem C08_no_outside_sums_to_one :
  forall m safe (avail : option (nat -> bool)) el ids delta mu,
  valid_market m ->
  (exists k, (k < mJ m)%nat /\
    match avail with Some b => b k | None => true end
    && match el with Some i => negb (Nat.eqb k i) | None => true end
    && match ids with Some mask => negb (mask k) | None => true end = true) ->
  sumn (mJ m) (fst (probabilities_linear m
    (mk_choice true (option_map (fun b j => indR (b j)) avail) el ids) safe delta mu)) = 1.
Proof. exact probabilities_no_outside. Qed.
Print Assumptions C08_no_outside_sums_to_one.

Example C08_hypothesis :
  exists k, (k < mJ nest_market)%nat /\
    true && match Some 1%nat with Some i => negb (Nat.eqb k i) | None => true end && true = true.
Proof. exists 2%nat. cbn. split; [lia|reflexivity]. Qed.
