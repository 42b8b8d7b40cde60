(** Property theorems about existence of mean utilities and convergence of the contraction: C80 and
    C81. *)
From Coq Require Import Reals Lra Lia List Bool Arith.
From Verif Require Import Base FltModel IterModel DemandModel DemandSpec DemandProofs DemandShares DemandElim.
From Verif Require Import ConvModel ConvProofs ConvRun.
Local Open Scope R_scope.

(** C80: any positive shares with a positive outside share are the shares of some mean utilities,
    for every epsilon_scale (with C05: of exactly one vector). *)
Theorem C80_delta_exists :
  forall m a shares,
  valid_market m -> valid_agents a ->
  (mH m <> O -> forall h, (h < mH m)%nat -> 0 <= grho m h) ->
  (forall j, (j < mJ m)%nat -> 0 < shares j) -> sumn (mJ m) shares < sumn (aI a) (aw a) ->
  exists delta, forall j, (j < mJ m)%nat ->
    sumn (aI a) (fun i =>
      (if Nat.eqb (mH m) 0
       then logit (mJ m) all_goods true (fun k => (delta k + amu a i k) / eps_scale m) j
       else nested (mJ m) (mH m) (gid m) (grho m) all_goods true
              (fun k => (delta k + amu a i k) / eps_scale m) j) * aw a i) = shares j.
Proof.
  intros m a shares V A Hr Hs HS. destruct (delta_exists m a true shares V A Hr Hs HS) as [d Hd].
  exists d. intros j Hj. rewrite <- (Hd j Hj). symmetry. apply shares_are_averaged; assumption.
Qed.
Print Assumptions C80_delta_exists.

(** The condition on the sum cannot be dropped: shares that some mean utilities yield have it. *)
Theorem C80_outside_share_necessary :
  forall m a safe delta,
  valid_market m -> valid_agents a ->
  sumn (mJ m) (market_shares m a safe delta) < sumn (aI a) (aw a).
Proof. exact outside_share_positive. Qed.
Print Assumptions C80_outside_share_necessary.

(** C81: from every starting value, with or without bounds on shares (that the given shares
    satisfy), iterates of the contraction converge to the solution if epsilon_scale >= 1. *)
Theorem C81_iterates_converge :
  forall m a safe bounds shares delta start,
  valid_market m -> valid_agents a ->
  (mH m <> O -> forall h, (h < mH m)%nat -> 0 <= grho m h) -> 1 <= eps_scale m ->
  (forall j, (j < mJ m)%nat -> 0 < shares j) -> slack_bounds m bounds shares ->
  (forall j, (j < mJ m)%nat -> market_shares m a safe delta j = shares j) ->
  forall j, (j < mJ m)%nat ->
  Un_cv (fun n => Nat.iter n (contraction m a safe bounds shares) start j) (delta j).
Proof. exact contraction_converges. Qed.
Print Assumptions C81_iterates_converge.

(** Hence the simple routine reports convergence for all tolerances if its budget is large enough, *)
Theorem C81_simple_routine_converges :
  forall m a safe bounds shares start,
  valid_market m -> valid_agents a ->
  (mH m <> O -> forall h, (h < mH m)%nat -> 0 <= grho m h) -> 1 <= eps_scale m ->
  (forall j, (j < mJ m)%nat -> 0 < shares j) -> slack_bounds m bounds shares ->
  forall atol rtol, sumn (mJ m) shares < sumn (aI a) (aw a) -> 0 < atol -> 0 <= rtol ->
  exists N, forall M, (N < M)%nat ->
  exists o, simple_iterator (delta_function m a safe bounds shares) (mk_tol (Num atol) (Num rtol) infinity_norm) M
              (flat (mJ m) start) = Some o /\ o_converged o = true /\ (s_evaluations (o_st o) <= N)%nat.
Proof. intros m a safe bounds shares start V A Hr He Hs SB. apply simple_converges; assumption. Qed.
Print Assumptions C81_simple_routine_converges.

(** and what it returns when it does is as close to the solution as desired if the tolerance is
    small enough. *)
Theorem C81_simple_routine_accurate :
  forall m a safe bounds shares start,
  valid_market m -> valid_agents a ->
  (mH m <> O -> forall h, (h < mH m)%nat -> 0 <= grho m h) -> 1 <= eps_scale m ->
  (forall j, (j < mJ m)%nat -> 0 < shares j) -> slack_bounds m bounds shares ->
  forall delta eta,
  (forall j, (j < mJ m)%nat -> market_shares m a safe delta j = shares j) -> 0 < eta ->
  exists atol0, 0 < atol0 /\ forall atol M o, 0 < atol <= atol0 ->
  simple_iterator (delta_function m a safe bounds shares) (mk_tol (Num atol) (Num 0) infinity_norm) M
    (flat (mJ m) start) = Some o -> o_converged o = true ->
  forall j, (j < mJ m)%nat -> Rabs (column (o_x o) j - delta j) <= eta.
Proof. intros m a safe bounds shares start V A Hr He Hs SB. apply simple_accurate; assumption. Qed.
Print Assumptions C81_simple_routine_accurate.

(** With a smaller epsilon_scale (the documented use of which is to approximate pure
    characteristics models) there may be a solution and a start from which iterates never settle:
    successive iterates always differ by the same gap and no budget is enough. *)
Theorem C81_small_epsilon_refuted :
  exists m a shares delta start gap,
    valid_market m /\ mH m = O /\ valid_agents a /\ 0 < eps_scale m < 1 /\
    (forall j, (j < mJ m)%nat -> 0 < shares j) /\ sumn (mJ m) shares < sumn (aI a) (aw a) /\
    (forall safe j, (j < mJ m)%nat -> market_shares m a safe delta j = shares j) /\ 0 < gap /\
    forall safe,
      (forall n, exists j, (j < mJ m)%nat /\
         gap <= Rabs (Nat.iter (S n) (contraction m a safe (None, None) shares) start j
                      - Nat.iter n (contraction m a safe (None, None) shares) start j)) /\
      (forall atol M o, 0 < atol <= gap ->
         simple_iterator (delta_function m a safe (None, None) shares)
           (mk_tol (Num atol) (Num 0) infinity_norm) M (flat (mJ m) start) = Some o ->
         o_converged o = false).
Proof. exact iterates_cycle. Qed.
Print Assumptions C81_small_epsilon_refuted.

(** The hypotheses: two nests with different parameters, two agents, three products, and the
    default lower bound on shares. *)
Definition conv_market : market :=
  mk_market 3 2 (fun j => if Nat.ltb j 2 then O else 1%nat) true (fun h => match h with O => / 2 | _ => / 4 end) 1.
Definition conv_agents : agents := mk_agents 2 (fun _ => / 2) (fun i j => INR (i + j)).
Definition conv_shares : nat -> R := fun j => match j with O => / 4 | _ => / 8 end.

Example C80_applies :
  valid_market conv_market /\ valid_agents conv_agents /\
  (forall h, (h < mH conv_market)%nat -> 0 <= grho conv_market h) /\
  (forall j, (j < mJ conv_market)%nat -> 0 < conv_shares j) /\
  sumn (mJ conv_market) conv_shares < sumn (aI conv_agents) (aw conv_agents).
Proof.
  split; [split; cbn [conv_market mJ mH gid rho_multi grho eps_scale]; try lia; try lra; try discriminate; try reflexivity|].
  - intros _ j Hj. destruct (Nat.ltb j 2); lia.
  - intros _ h Hh. destruct h; lra.
  - split; [split; [intros; cbn; lra|exists O; cbn; split; [lia|lra]]|].
    split; [intros h Hh; cbn; destruct h; lra|].
    split; [intros j Hj; unfold conv_shares; destruct j; lra|]. cbn. lra.
Qed.

Example C81_applies :
  1 <= eps_scale conv_market /\ slack_bounds conv_market (Some (/ 1000), None) conv_shares.
Proof.
  split; [cbn; lra|]. split; [|exact I]. cbn [fst]. split; [lra|].
  intros j Hj. unfold conv_shares. destruct j; lra.
Qed.
