(** Markets for theorems about how mean utilities depend on shares. *)
From Coq Require Import Reals Lra Lia Arith Bool.
From Verif Require Import Base DemandModel DemandSpec DemandProofs DemandShares DemandElim ConvProofs.
Local Open Scope R_scope.

(** Two products, and two types of agents, of whom the second one likes the first product more. *)
Definition tastes_market : market := mk_market 2 0 (fun _ => O) false (fun _ => 0) 1.
Definition tastes : agents := mk_agents 2 (fun _ => / 2) (fun i j => match i, j with S _, O => ln 3 | _, _ => 0 end).
Lemma tastes_market_valid : valid_market tastes_market.
Proof. constructor; cbn; intros; try lia; try lra; congruence. Qed.
Lemma tastes_valid : valid_agents tastes.
Proof. split; [intros i _; cbn; lra|]. exists O. cbn. split; [lia|lra]. Qed.

Lemma tastes_shares safe x : let u := exp (x 0%nat) in let v := exp (x 1%nat) in
  market_shares tastes_market tastes safe x 0 = (u / (1 + u + v) + 3 * u / (1 + 3 * u + v)) / 2 /\
  market_shares tastes_market tastes safe x 1 = (v / (1 + u + v) + v / (1 + 3 * u + v)) / 2.
Proof.
  cbv zeta. rewrite !shares_are_averaged by (try exact tastes_market_valid; cbn; lia).
  cbn [mH tastes_market Nat.eqb mJ aI tastes aw amu eps_scale sumn]. unfold logit. cbn [all_goods indR sumn].
  unfold Rdiv. rewrite !Rinv_1, !Rmult_1_r, !Rplus_0_r, !exp_plus, exp_ln by lra.
  assert (U := exp_pos (x 0%nat)). assert (W := exp_pos (x 1%nat)). set (u := exp (x 0%nat)) in *. set (v := exp (x 1%nat)) in *.
  split; field; lra.
Qed.

Lemma tastes_not_shifted safe : exists x y,
  (forall j, (j < 2)%nat -> market_shares tastes_market tastes safe y j = 5 / 4 * market_shares tastes_market tastes safe x j) /\
  y 0%nat - x 0%nat <> y 1%nat - x 1%nat.
Proof.
  destruct (tastes_shares safe (fun _ => 0)) as [X0 X1]. rewrite exp_0 in X0, X1.
  assert (S0 : market_shares tastes_market tastes safe (fun _ => 0) 0 = 7 / 15) by lra.
  assert (S1 : market_shares tastes_market tastes safe (fun _ => 0) 1 = 4 / 15) by lra.
  destruct (delta_exists tastes_market tastes safe (fun j => 5 / 4 * market_shares tastes_market tastes safe (fun _ => 0) j)) as [y Hy].
  { exact tastes_market_valid. } { exact tastes_valid. } { cbn. congruence. }
  { intros j Hj. assert (P := market_shares_pos _ _ safe (fun _ => 0) j tastes_market_valid tastes_valid Hj). lra. }
  { cbn [mJ tastes_market sumn aI tastes aw]. fold tastes_market. change (mk_market 2 0 (fun _ => 0%nat) false (fun _ => 0) 1) with tastes_market.
    rewrite S0, S1. lra. }
  exists (fun _ => 0), y. split; [exact Hy|]. intros E. rewrite !Rminus_0_r in E.
  destruct (tastes_shares safe y) as [Y0 Y1]. rewrite E in Y0, Y1.
  assert (H0 := Hy 0%nat ltac:(cbn; lia)). assert (H1 := Hy 1%nat ltac:(cbn; lia)). rewrite S0, Y0 in H0. rewrite S1, Y1 in H1.
  assert (L := exp_pos (y 1%nat)). set (l := exp (y 1%nat)) in *.
  assert (N1 : 1 + l + l <> 0) by lra. assert (N2 : 1 + 3 * l + l <> 0) by lra.
  assert (G0 : l * (1 + 3 * l + l) + 3 * l * (1 + l + l) = 7 / 6 * ((1 + l + l) * (1 + 3 * l + l))).
  { replace (7 / 6) with (2 * (5 / 4 * (7 / 15))) by field. rewrite <- H0. field. split; assumption. }
  assert (G1 : l * (1 + 3 * l + l) + l * (1 + l + l) = 2 / 3 * ((1 + l + l) * (1 + 3 * l + l))).
  { replace (2 / 3) with (2 * (5 / 4 * (4 / 15))) by field. rewrite <- H1. field. split; assumption. }
  assert (G : l * (l - 1) = 0) by nra. apply Rmult_integral in G. destruct G as [G|G]; [lra|].
  assert (e : l = 1) by lra. rewrite e in G1. lra.
Qed.
