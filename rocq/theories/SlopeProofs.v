(** Demand and consumer surplus at prices that are changed by any amounts. *)
From Coq Require Import Reals Lra Lia List Bool Arith FunctionalExtensionality.
From Verif Require Import Base DemandSpec DemandModel DemandProofs DemandShares DemandDeriv DemandElim SupplyModel SupplySpec SupplyProofs
  WelfareModel WelfareSpec WelfareProofs EndoModel EndoSpec EndoProofs.
Import ListNotations.
Local Open Scope R_scope.

Lemma upd_upd x k s t : upd (upd x k s) k t = upd x k t.
Proof. apply functional_extensionality. intros j. unfold upd. destruct (Nat.eqb j k); reflexivity. Qed.
Lemma upd_at x k t : upd x k t k = t.
Proof. unfold upd. rewrite Nat.eqb_refl. reflexivity. Qed.
Lemma upd_id x k : upd x k (x k) = x.
Proof. apply functional_extensionality. intros j. unfold upd. destruct (Nat.eqb_spec j k) as [->|]; reflexivity. Qed.

Lemma surplus_weights_ext m inc U U' : (forall k, (k < mJ m)%nat -> U k = U' k) -> surplus_weights m inc U = surplus_weights m inc U'.
Proof.
  intros E. apply sumn_ext. intros h _. unfold group_weight. destruct (existsb _ _); [|reflexivity]. f_equal.
  apply sumn_ext. intros k Hk. rewrite (E k Hk). reflexivity.
Qed.

(** Functions of one price. *)
Section Line.
Variables (f : (nat -> R) -> R) (x : nat -> R) (k : nat) (d : (nat -> R) -> R).
Hypothesis Hd : forall y, derivable_pt_lim (fun t => f (upd y k t)) (y k) (d y).

Lemma along s t : s < t -> exists c, s < c < t /\ f (upd x k t) - f (upd x k s) = d (upd x k c) * (t - s).
Proof.
  intros L. destruct (MVT_cor2 (fun u => f (upd x k u)) (fun u => d (upd x k u)) s t L) as [c [E B]].
  - intros c _. assert (X := Hd (upd x k c)). rewrite upd_at in X.
    apply (derivable_pt_lim_ext (fun u => f (upd (upd x k c) k u))); [|exact X]. intros u. rewrite upd_upd. reflexivity.
  - exists c. split; [assumption|exact E].
Qed.
End Line.

Section Market.
Variable M : full_market.
Hypothesis V : valid_market (fm M).
Hypothesis G : forall y, good_columns M y.
Hypothesis PA : forall y, price_averse M y.
Notation J := (mJ (fm M)).

Lemma shares_depend x y : (forall k, (k < J)%nat -> x k = y k) -> forall j, (j < J)%nat -> shares_at M x j = shares_at M y j.
Proof.
  intros E j Hj. unfold shares_at. apply sumn_ext. intros i Hi. f_equal. unfold probs.
  apply probabilities_ext; try assumption. intros k Hk. unfold utility. f_equal. f_equal.
  - unfold update_delta. f_equal. apply sumn_ext. intros c _. rewrite (E k Hk). reflexivity.
  - unfold update_mu, compute_mu. apply sumn_ext. intros c _. rewrite (E k Hk). reflexivity.
Qed.

Lemma own_falls x k s t : (k < J)%nat -> s < t -> shares_at M (upd x k t) k < shares_at M (upd x k s) k.
Proof.
  intros Hk L. destruct (along (fun y => shares_at M y k) x k (fun y => shares_jacobian M y k k)
    (fun y => jacobian_is_derivative M y k k V (G y) Hk Hk) s t L) as [c [_ E]].
  assert (N := own_negative M (upd x k c) k V (PA _) Hk).
  assert (0 < - shares_jacobian M (upd x k c) k k * (t - s)) by (apply Rmult_lt_0_compat; lra). lra.
Qed.

Lemma others_rise x j k s t : (j < J)%nat -> (k < J)%nat -> j <> k -> s < t ->
  shares_at M (upd x k s) j < shares_at M (upd x k t) j.
Proof.
  intros Hj Hk N L. destruct (along (fun y => shares_at M y j) x k (fun y => shares_jacobian M y j k)
    (fun y => jacobian_is_derivative M y j k V (G y) Hj Hk) s t L) as [c [_ E]].
  assert (P := cross_positive M (upd x k c) j k V (PA _) Hj Hk N).
  assert (0 < shares_jacobian M (upd x k c) j k * (t - s)) by (apply Rmult_lt_0_compat; lra). lra.
Qed.

Lemma total_falls x k s t : (k < J)%nat -> s < t -> sumn J (shares_at M (upd x k t)) < sumn J (shares_at M (upd x k s)).
Proof.
  intros Hk L. destruct (along (fun y => sumn J (shares_at M y)) x k (fun y => sumn J (fun j => shares_jacobian M y j k))) with (s := s) (t := t) as [c [_ E]].
  - intros y. apply (dlim_sumn J (fun j u => shares_at M (upd y k u) j) (y k) (fun j => shares_jacobian M y j k)).
    intros j Hj. apply jacobian_is_derivative; auto.
  - assumption.
  - assert (N := column_total M (upd x k c) k V (PA _) Hk).
    assert (0 < - sumn J (fun j => shares_jacobian M (upd x k c) j k) * (t - s)) by (apply Rmult_lt_0_compat; lra). lra.
Qed.

(* ---------- one price after another ---------- *)

Definition path (x y : nat -> R) (n : nat) : nat -> R := fun j => if Nat.ltb j n then y j else x j.

Lemma path_step x y n : path x y (S n) = upd (path x y n) n (y n).
Proof.
  apply functional_extensionality. intros j. unfold path, upd.
  destruct (Nat.eqb_spec j n) as [e|N]; destruct (Nat.ltb_spec j (S n)); destruct (Nat.ltb_spec j n); try lia; try reflexivity.
  rewrite e. reflexivity.
Qed.

Lemma path_at x y n : path x y n n = x n.
Proof. unfold path. rewrite Nat.ltb_irrefl. reflexivity. Qed.

Lemma path_same x y n : upd (path x y n) n (x n) = path x y n.
Proof. assert (E := upd_id (path x y n) n). rewrite path_at in E. exact E. Qed.

Lemma path_end x y k : (k < J)%nat -> path x y J k = y k.
Proof. intros H. unfold path. destruct (Nat.ltb_spec k J); [reflexivity|lia]. Qed.

Lemma path_start x y : path x y 0 = x.
Proof. reflexivity. Qed.

(** A function that falls in each price falls in all. *)
Lemma falls_along f x y : (forall k, (k < J)%nat -> x k <= y k) ->
  (forall z k s t, (k < J)%nat -> x k <= y k -> s = x k -> t = y k -> s < t -> f (upd z k t) <= f (upd z k s)) ->
  f (path x y J) <= f x.
Proof using.
  intros H F. enough (X : forall n, (n <= J)%nat -> f (path x y n) <= f x) by (apply X; lia).
  induction n as [|n IH]; intros Hn; [rewrite path_start; lra|].
  eapply Rle_trans; [|apply IH; lia]. assert (Hx := H n ltac:(lia)).
  assert (E1 : f (path x y n) = f (upd (path x y n) n (x n))) by (rewrite path_same; reflexivity).
  rewrite path_step, E1. destruct (Rle_lt_or_eq_dec _ _ Hx) as [L|E].
  - apply F; auto; lia.
  - rewrite E. lra.
Qed.

Lemma falls_strictly_along f x y k : (forall k, (k < J)%nat -> x k <= y k) -> (k < J)%nat -> x k < y k ->
  (forall z k s t, (k < J)%nat -> x k <= y k -> s = x k -> t = y k -> s < t -> f (upd z k t) < f (upd z k s)) ->
  f (path x y J) < f x.
Proof using.
  intros H Hk L F.
  assert (W : forall n, (n <= J)%nat -> f (path x y n) <= f x /\ ((k < n)%nat -> f (path x y n) < f x)).
  { induction n as [|n IH]; intros Hn; [rewrite path_start; split; [lra|lia]|].
    destruct (IH ltac:(lia)) as [I1 I2]. assert (Hx := H n ltac:(lia)).
    assert (E0 : path x y (S n) = upd (path x y n) n (y n)) by apply path_step.
    assert (E1 : f (path x y n) = f (upd (path x y n) n (x n))) by (rewrite path_same; reflexivity).
    destruct (Rle_lt_or_eq_dec _ _ Hx) as [Q|Q].
    - assert (X : f (path x y (S n)) < f (path x y n)).
      { rewrite E0, E1. apply F; auto; lia. }
      split; [lra|]. intros _. lra.
    - assert (X : f (path x y (S n)) = f (path x y n)) by (rewrite E0, E1, Q; reflexivity).
      rewrite X. split; [assumption|]. intros Hl. apply I2. destruct (Nat.eq_dec k n) as [->|]; [lra|lia]. }
  apply (W J); [lia|assumption].
Qed.

Lemma total_monotone x y : (forall k, (k < J)%nat -> x k <= y k) ->
  sumn J (shares_at M y) <= sumn J (shares_at M x) /\
  ((exists k, (k < J)%nat /\ x k < y k) -> sumn J (shares_at M y) < sumn J (shares_at M x)).
Proof.
  intros H. assert (E : sumn J (shares_at M y) = sumn J (shares_at M (path x y J))).
  { apply sumn_ext. apply shares_depend. intros k Hk. rewrite path_end by assumption. reflexivity. }
  rewrite E. split.
  - apply (falls_along (fun z => sumn J (shares_at M z)) x y H). intros z k s t Hk _ _ _ L. left. apply total_falls; assumption.
  - intros [k [Hk L]]. apply (falls_strictly_along (fun z => sumn J (shares_at M z)) x y k H Hk L).
    intros z l s t Hl _ _ _ Q. apply total_falls; assumption.
Qed.

Lemma others_monotone x y j : (forall k, (k < J)%nat -> x k <= y k) -> (j < J)%nat -> x j = y j ->
  shares_at M x j <= shares_at M y j /\
  ((exists k, (k < J)%nat /\ x k < y k) -> shares_at M x j < shares_at M y j).
Proof.
  intros H Hj E0. assert (E : shares_at M y j = shares_at M (path x y J) j).
  { apply shares_depend; [|assumption]. intros k Hk. rewrite path_end by assumption. reflexivity. }
  rewrite E.
  assert (Q : forall z k s t, (k < J)%nat -> x k <= y k -> s = x k -> t = y k -> s < t ->
     - shares_at M (upd z k t) j < - shares_at M (upd z k s) j).
  { intros z k s t Hk _ Es Et L. apply Ropp_lt_contravar. apply others_rise; try assumption.
    intros ->. lra. }
  split.
  - apply Ropp_le_cancel. apply (falls_along (fun z => - shares_at M z j) x y H).
    intros. left. apply Q; assumption.
  - intros [k [Hk L]]. apply Ropp_lt_cancel. apply (falls_strictly_along (fun z => - shares_at M z j) x y k H Hk L). exact Q.
Qed.

(* ---------- surplus ---------- *)

Variable a : nat -> R.
Hypothesis Eps : eps_scale (fm M) = 1.
Hypothesis Ha : forall i, (i < fI M)%nat -> a i <> 0.
Hypothesis Hi : forall i, (i < fI M)%nat -> no_income_effects J (price_utility M i) (a i).
Notation CS := (consumer_surplus M (fun _ => None) None).

Lemma surplus_derivative y k : (k < J)%nat ->
  derivable_pt_lim (fun t => CS (upd y k t)) (y k) (- shares_at M y k).
Proof.
  intros Hk. assert (R := income_roy M (fun _ => None) None true y k a V G Eps Hk Ha Hi). cbn [option_map] in R.
  eapply dlim_eq; [|exact R]. f_equal.
Qed.

Lemma surplus_bounds x k s t : (k < J)%nat -> s < t ->
  (t - s) * shares_at M (upd x k t) k <= CS (upd x k s) - CS (upd x k t) <= (t - s) * shares_at M (upd x k s) k.
Proof.
  intros Hk L. destruct (along CS x k (fun y => - shares_at M y k) (fun y => surplus_derivative y k Hk) s t L) as [c [B E]].
  assert (A1 := own_falls x k c t Hk (proj2 B)). assert (A2 := own_falls x k s c Hk (proj1 B)).
  assert (0 <= (t - s) * (shares_at M (upd x k c) k - shares_at M (upd x k t) k)) by (apply Rmult_le_pos; lra).
  assert (0 <= (t - s) * (shares_at M (upd x k s) k - shares_at M (upd x k c) k)) by (apply Rmult_le_pos; lra).
  lra.
Qed.

Lemma share_pos_at x k : (k < J)%nat -> 0 < shares_at M x k.
Proof.
  intros Hk. destruct (PA x) as [I0 [W _]]. apply sumn_pos.
  - intros i Hi'. left. apply Rmult_lt_0_compat; [apply probs_pos; assumption|apply W; assumption].
  - exists O. split; [assumption|]. apply Rmult_lt_0_compat; [apply probs_pos; assumption|apply W; assumption].
Qed.

Lemma surplus_depends x y : (forall k, (k < J)%nat -> x k = y k) -> CS x = CS y.
Proof.
  intros E. unfold consumer_surplus. apply sumn_ext. intros i Hi'. f_equal. unfold individual_surplus. f_equal.
  assert (U : forall k, (k < J)%nat -> update_delta M x k + update_mu M x i k = update_delta M y k + update_mu M y i k).
  { intros k Hk. f_equal.
    - unfold update_delta. f_equal. apply sumn_ext. intros c _. rewrite (E k Hk). reflexivity.
    - unfold update_mu, compute_mu. apply sumn_ext. intros c _. rewrite (E k Hk). reflexivity. }
  assert (Q : forall z, surplus_numerator (fm M) None None (update_delta M z) (update_mu M z i)
     = ln (1 + surplus_weights (fm M) (included None None None) (fun j => update_delta M z j + update_mu M z i j))).
  { intros z. apply (surplus_numerator_exact (fm M) None None (update_delta M z) (update_mu M z i) V). }
  rewrite !Q. do 2 f_equal. apply surplus_weights_ext. exact U.
Qed.

Lemma surplus_monotone x y : (forall k, (k < J)%nat -> x k <= y k) ->
  CS y <= CS x /\ ((exists k, (k < J)%nat /\ x k < y k) -> CS y < CS x).
Proof.
  intros H. rewrite (surplus_depends y (path x y J)) by (intros k Hk; rewrite path_end by assumption; reflexivity).
  assert (Q : forall z k s t, (k < J)%nat -> x k <= y k -> s = x k -> t = y k -> s < t -> CS (upd z k t) < CS (upd z k s)).
  { intros z k s t Hk _ _ _ L. destruct (surplus_bounds z k s t Hk L) as [B _].
    assert (P := share_pos_at (upd z k t) k Hk).
    assert (0 < (t - s) * shares_at M (upd z k t) k) by (apply Rmult_lt_0_compat; lra). lra. }
  split.
  - apply (falls_along CS x y H). intros. left. apply Q; assumption.
  - intros [k [Hk L]]. apply (falls_strictly_along CS x y k H Hk L). exact Q.
Qed.
End Market.
