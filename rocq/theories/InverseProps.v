(** Property C143: how mean utilities depend on shares and on sizes of markets. *)
From Coq Require Import Reals Lra Lia Arith Bool.
From Verif Require Import Base DemandModel DemandSpec DemandProofs DemandShares InverseProofs InverseWitness.
Local Open Scope R_scope.

(** If shares are larger, or the same, for all products, so are mean utilities, and those of products with larger shares are
    larger. *)
Theorem C143_monotone : forall m a safe x y, valid_market m -> valid_agents a ->
  (mH m <> O -> forall h, (h < mH m)%nat -> 0 <= grho m h) ->
  (forall j, (j < mJ m)%nat -> market_shares m a safe x j <= market_shares m a safe y j) ->
  (forall j, (j < mJ m)%nat -> x j <= y j) /\
  (forall j, (j < mJ m)%nat -> market_shares m a safe x j < market_shares m a safe y j -> x j < y j).
Proof.
  intros m a safe x y V A R E. split.
  - exact (inverse_monotone m a safe V A R x y E).
  - intros j Hj L. exact (inverse_strict m a safe V A R x y j E Hj L).
Qed.
Print Assumptions C143_monotone.

(** If a market turns out to be smaller, so that all shares are c > 1 times as large, mean utilities rise by at least
    epsilon_scale (1 - rho) ln(c), where rho is the largest nesting parameter. *)
Theorem C143_smaller_market : forall m a safe x y c r, valid_market m -> valid_agents a ->
  (mH m <> O -> forall h, (h < mH m)%nat -> 0 <= grho m h <= r) -> (mH m = O -> 0 <= r) -> r < 1 -> 1 <= c ->
  (forall j, (j < mJ m)%nat -> market_shares m a safe y j = c * market_shares m a safe x j) ->
  forall j, (j < mJ m)%nat -> x j + eps_scale m * (1 - r) * ln c <= y j.
Proof.
  intros m a safe x y c r V A R R0 R1 Hc E. apply (market_size_bound m a safe V A); try assumption; intros N h Hh; apply R; assumption.
Qed.
Print Assumptions C143_smaller_market.

(** Without heterogeneity, they all change by the same number, also with nesting. *)
Theorem C143_logit_size : forall m shares c, (forall j, (j < mJ m)%nat -> 0 < shares j) -> 0 < c ->
  sumn (mJ m) shares < 1 -> c * sumn (mJ m) shares < 1 -> forall j, (j < mJ m)%nat ->
  closed_form_delta m (fun k => c * shares k) j =
  closed_form_delta m shares j + eps_scale m * ln (c * (1 - sumn (mJ m) shares) / (1 - c * sumn (mJ m) shares)).
Proof. exact closed_form_size. Qed.
Print Assumptions C143_logit_size.

(** With heterogeneity they may not. *)
Theorem C143_heterogeneity : forall safe, exists m a x y, valid_market m /\ valid_agents a /\ mH m = O /\
  (forall j, (j < mJ m)%nat -> market_shares m a safe y j = 5 / 4 * market_shares m a safe x j) /\
  exists j k, (j < mJ m)%nat /\ (k < mJ m)%nat /\ y j - x j <> y k - x k.
Proof.
  intros safe. destruct (tastes_not_shifted safe) as [x [y [E D]]]. exists tastes_market, tastes, x, y.
  split; [exact tastes_market_valid|]. split; [exact tastes_valid|]. split; [reflexivity|]. split; [exact E|].
  exists 0%nat, 1%nat. cbn. split; [lia|]. split; [lia|exact D].
Qed.
Print Assumptions C143_heterogeneity.

(** Markets and shares with these hypotheses. *)
Example C143_applies :
  valid_market tastes_market /\ valid_agents tastes /\ (mH tastes_market <> O -> forall h, (h < mH tastes_market)%nat -> 0 <= grho tastes_market h <= 0) /\
  (exists x y, (forall j, (j < mJ tastes_market)%nat -> market_shares tastes_market tastes true y j = 5 / 4 * market_shares tastes_market tastes true x j) /\
     forall j, (j < mJ tastes_market)%nat -> market_shares tastes_market tastes true x j < market_shares tastes_market tastes true y j) /\
  (forall j, (j < mJ tastes_market)%nat -> 0 < (fun _ : nat => / 4) j) /\ sumn (mJ tastes_market) (fun _ => / 4) < 1 /\
  3 / 2 * sumn (mJ tastes_market) (fun _ => / 4) < 1.
Proof.
  split; [exact tastes_market_valid|]. split; [exact tastes_valid|]. split; [cbn; congruence|]. split.
  - destruct (tastes_not_shifted true) as [x [y [E _]]]. exists x, y. split; [exact E|]. intros j Hj. rewrite (E j Hj).
    assert (P := market_shares_pos _ _ true x j tastes_market_valid tastes_valid Hj). lra.
  - cbn. split; [intros; lra|]. lra.
Qed.
