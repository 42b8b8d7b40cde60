(** Outputs depend on agents only through the distribution of their tastes. *)
From Coq Require Import Reals Lra Lia List Bool Arith FunctionalExtensionality.
From Verif Require Import Base FltModel IterModel DemandModel SupplyModel ConvModel EquilModel WelfareModel OrderSpec OrderProofs.
Import ListNotations.
Local Open Scope R_scope.

Lemma average_same {A} I w (x : nat -> A) I' w' x' (F F' : nat -> R) f : same_distribution I w x I' w' x' ->
  (forall i, F i = w i * f (x i)) -> (forall i, F' i = w' i * f (x' i)) -> sumn I F = sumn I' F'.
Proof.
  intros H E E'. rewrite (sumn_ext I F _ (fun i _ => E i)), (sumn_ext I' F' _ (fun i _ => E' i)). apply H.
Qed.

Lemma market_shares_same m a a' safe delta j : same_distribution (aI a) (aw a) (amu a) (aI a') (aw a') (amu a') ->
  market_shares m a safe delta j = market_shares m a' safe delta j.
Proof.
  intros H. unfold market_shares.
  apply (average_same _ _ _ _ _ _ _ _ (fun mu => fst (probabilities_linear m full_choice safe delta mu) j) H); intros; ring.
Qed.
Lemma contraction_same m a a' safe bounds shares : same_distribution (aI a) (aw a) (amu a) (aI a') (aw a') (amu a') ->
  contraction m a safe bounds shares = contraction m a' safe bounds shares.
Proof.
  intros H. apply functional_extensionality. intros x. apply functional_extensionality. intros j. unfold contraction.
  rewrite (market_shares_same m a a' safe x j H). reflexivity.
Qed.
Lemma clipped_same m a a' safe bounds x j : same_distribution (aI a) (aw a) (amu a) (aI a') (aw a') (amu a') ->
  clipped_shares m a safe bounds x j = clipped_shares m a' safe bounds x j.
Proof. intros H. unfold clipped_shares. rewrite (market_shares_same m a a' safe x j H). reflexivity. Qed.
Lemma delta_function_same m a a' safe bounds shares : same_distribution (aI a) (aw a) (amu a) (aI a') (aw a') (amu a') ->
  delta_function m a safe bounds shares = delta_function m a' safe bounds shares.
Proof. intros H. unfold delta_function. rewrite (contraction_same m a a' safe bounds shares H). reflexivity. Qed.

Lemma nonlinear_same m a a' safe shares x j : same_distribution (aI a) (aw a) (amu a) (aI a') (aw a') (amu a') ->
  nonlinear_contraction m a safe shares x j = nonlinear_contraction m a' safe shares x j.
Proof.
  intros H. unfold nonlinear_contraction.
  set (one := fun mu => mk_agents 1 (fun _ => 1) (fun _ => mu)).
  assert (E : forall num, sumn (aI a) (fun i => nonlinear_probabilities m a safe num x i j * aw a i)
                        = sumn (aI a') (fun i => nonlinear_probabilities m a' safe num x i j * aw a' i)).
  { intros num. apply (average_same _ _ _ _ _ _ _ _ (fun mu => nonlinear_probabilities m (one mu) safe num x 0 j) H); intros; apply Rmult_comm. }
  rewrite !E. reflexivity.
Qed.

Section Full.
  Variables (M : full_market) (I' : nat) (w' : nat -> R) (coef' : nat -> nat -> nat -> R).
  Let M' := with_agents M I' w' coef'.
  (** A market whose only agent has given coefficients. *)
  Let lone (c : nat -> nat -> R) := with_agents M 1 (fun _ => 1) (fun k j _ => c k j).
  Hypothesis H : same_distribution (fI M) (fw M) (agent_coefficients M) I' w' (agent_coefficients M').

  Lemma shares_at_same x j : shares_at M x j = shares_at M' x j.
  Proof.
    unfold shares_at.
    apply (average_same _ _ _ _ _ _ _ _ (fun c => probs (fm M) (update_delta M x) (update_mu (lone c) x) 0 j) H);
      intros i; apply Rmult_comm.
  Qed.
  Lemma lamda_same x j : lamda_at M x j = lamda_at M' x j.
  Proof.
    unfold lamda_at, capital_lamda. change (mH (fm M')) with (mH (fm M)). change (rho (fm M') j) with (rho (fm M) j).
    match goal with |- context [sumn (fI M) ?f] => match goal with |- context [sumn (fI M') ?g] =>
      assert (E : sumn (fI M) f = sumn (fI M') g) end end.
    { apply (average_same _ _ _ _ _ _ _ _ (fun c => probs (fm M) (update_delta M x) (update_mu (lone c) x) 0 j
        * utility_derivatives (lone c) false x 0 j) H); intros i; apply Rmult_comm. }
    rewrite E. reflexivity.
  Qed.
  Lemma gamma_same x j k : gamma_at M x j k = gamma_at M' x j k.
  Proof.
    unfold gamma_at, capital_gamma. change (mH (fm M')) with (mH (fm M)). change (rho (fm M') j) with (rho (fm M) j).
    change (membership (fm M') j k) with (membership (fm M) j k).
    set (g := fun c => probs (fm M) (update_delta M x) (update_mu (lone c) x) 0 k * utility_derivatives (lone c) false x 0 k).
    assert (E1 : sumn (fI M) (fun i => probs (fm M) (update_delta M x) (update_mu M x) i j
        * (fw M i * (probs (fm M) (update_delta M x) (update_mu M x) i k * utility_derivatives M false x i k)))
      = sumn (fI M') (fun i => probs (fm M') (update_delta M' x) (update_mu M' x) i j
        * (fw M' i * (probs (fm M') (update_delta M' x) (update_mu M' x) i k * utility_derivatives M' false x i k)))).
    { apply (average_same _ _ _ _ _ _ _ _ (fun c => probs (fm M) (update_delta M x) (update_mu (lone c) x) 0 j * g c) H);
        intros i.
      - change (g (agent_coefficients M i)) with (probs (fm M) (update_delta M x) (update_mu M x) i k * utility_derivatives M false x i k).
        change (probs (fm M) (update_delta M x) (update_mu (lone (agent_coefficients M i)) x) 0 j)
          with (probs (fm M) (update_delta M x) (update_mu M x) i j). ring.
      - change (g (agent_coefficients M' i)) with (probs (fm M') (update_delta M' x) (update_mu M' x) i k * utility_derivatives M' false x i k).
        change (probs (fm M) (update_delta M x) (update_mu (lone (agent_coefficients M' i)) x) 0 j)
          with (probs (fm M') (update_delta M' x) (update_mu M' x) i j). change (fw M' i) with (w' i). ring. }
    assert (E2 : sumn (fI M) (fun i => conds (fm M) (update_delta M x) (update_mu M x) i j
        * (fw M i * (probs (fm M) (update_delta M x) (update_mu M x) i k * utility_derivatives M false x i k)))
      = sumn (fI M') (fun i => conds (fm M') (update_delta M' x) (update_mu M' x) i j
        * (fw M' i * (probs (fm M') (update_delta M' x) (update_mu M' x) i k * utility_derivatives M' false x i k)))).
    { apply (average_same _ _ _ _ _ _ _ _ (fun c => conds (fm M) (update_delta M x) (update_mu (lone c) x) 0 j * g c) H);
        intros i.
      - change (g (agent_coefficients M i)) with (probs (fm M) (update_delta M x) (update_mu M x) i k * utility_derivatives M false x i k).
        change (conds (fm M) (update_delta M x) (update_mu (lone (agent_coefficients M i)) x) 0 j)
          with (conds (fm M) (update_delta M x) (update_mu M x) i j). ring.
      - change (g (agent_coefficients M' i)) with (probs (fm M') (update_delta M' x) (update_mu M' x) i k * utility_derivatives M' false x i k).
        change (conds (fm M) (update_delta M x) (update_mu (lone (agent_coefficients M' i)) x) 0 j)
          with (conds (fm M') (update_delta M' x) (update_mu M' x) i j). change (fw M' i) with (w' i). ring. }
    rewrite E1, E2. reflexivity.
  Qed.
  Lemma jacobian_same x j k : shares_jacobian M x j k = shares_jacobian M' x j k.
  Proof.
    change ((if Nat.eqb j k then lamda_at M x j else 0) - gamma_at M x j k
      = (if Nat.eqb j k then lamda_at M' x j else 0) - gamma_at M' x j k).
    rewrite lamda_same, gamma_same. reflexivity.
  Qed.
  Lemma capital_delta_same O x : capital_delta M O x = capital_delta M' O x.
  Proof.
    apply functional_extensionality. intros j. apply functional_extensionality. intros k.
    unfold capital_delta. rewrite lamda_same, gamma_same. reflexivity.
  Qed.
  Lemma costs_same solve O observed : compute_costs solve M O observed = compute_costs solve M' O observed.
  Proof. unfold compute_costs, compute_eta. change (var0 M') with (var0 M). rewrite capital_delta_same. reflexivity. Qed.
  Lemma price_contraction_same O costs x j : price_contraction M O costs x j = price_contraction M' O costs x j.
  Proof.
    unfold price_contraction, zeta. rewrite lamda_same, shares_at_same. do 3 f_equal.
    apply sumn_ext. intros k _. rewrite gamma_same. reflexivity.
  Qed.
  Lemma prices_same O costs t max start : equilibrium_prices M O costs t max start = equilibrium_prices M' O costs t max start.
  Proof.
    unfold equilibrium_prices. change (var0 M') with (var0 M). change (mJ (fm M')) with (mJ (fm M)). f_equal.
    unfold prices_function. apply functional_extensionality. intros log. apply functional_extensionality. intros i.
    apply functional_extensionality. intros e. apply functional_extensionality. intros x.
    change (mJ (fm M')) with (mJ (fm M)).
    replace (price_contraction M' O costs (ConvModel.column x)) with (price_contraction M O costs (ConvModel.column x))
      by (apply functional_extensionality; intros j; apply price_contraction_same).
    replace (price_weights M' (ConvModel.column x)) with (price_weights M (ConvModel.column x)); [reflexivity|].
    apply functional_extensionality. intros j. unfold price_weights. rewrite lamda_same. reflexivity.
  Qed.
  Lemma surplus_same avail mask x : consumer_surplus M (fun _ => avail) mask x = consumer_surplus M' (fun _ => avail) mask x.
  Proof.
    unfold consumer_surplus.
    apply (average_same _ _ _ _ _ _ _ _ (fun c => individual_surplus (lone c) (fun _ => avail) mask x 0) H);
      intros i; apply Rmult_comm.
  Qed.
End Full.

(* ---------- Agents that have the same distribution ---------- *)
Lemma sumn_exchange n m f : sumn n (fun a => sumn m (fun b => f a b)) = sumn m (fun b => sumn n (fun a => f a b)).
Proof.
  induction n as [|n IH]; cbn [sumn]; [symmetry; apply sumn_zero|]. rewrite IH, <- sumn_plus. reflexivity.
Qed.
Lemma sumn_one_index n k c : (k < n)%nat -> sumn n (fun i => if Nat.eqb k i then c else 0) = c.
Proof.
  induction n as [|n IH]; intros Hk; [lia|]. cbn [sumn]. destruct (Nat.eqb_spec k n) as [->|N].
  - rewrite (sumn_ext n _ (fun _ => 0)); [rewrite sumn_zero; ring|]. intros i Hi. destruct (Nat.eqb_spec n i); [lia|reflexivity].
  - rewrite IH by lia. ring.
Qed.

(** Agents are split, merged with others like them, or put in another order. *)
Lemma split_same {A} I w (x : nat -> A) I' w' q : (forall i', (i' < I')%nat -> (q i' < I)%nat) ->
  (forall i, (i < I)%nat -> w i = sumn I' (fun i' => if Nat.eqb (q i') i then w' i' else 0)) ->
  same_distribution I w x I' w' (fun i' => x (q i')).
Proof.
  intros Hq Hw f.
  rewrite (sumn_ext I _ (fun i => sumn I' (fun i' => (if Nat.eqb (q i') i then w' i' * f (x (q i')) else 0)))).
  - rewrite sumn_exchange. apply sumn_ext. intros i' Hi'.
    exact (sumn_one_index I (q i') (w' i' * f (x (q i'))) (Hq i' Hi')).
  - intros i Hi. rewrite (Hw i Hi). rewrite <- sumn_scal_r. apply sumn_ext. intros i' _.
    destruct (Nat.eqb_spec (q i') i) as [<-|N]; ring.
Qed.
Lemma reordered_same {A} I w (x : nat -> A) q : renumbers I q -> same_distribution I w x I (fun i => w (q i)) (fun i => x (q i)).
Proof. intros Hq f. symmetry. exact (sumn_renumber I q (fun i => w i * f (x i)) Hq). Qed.
(** Agents with zero weight are dropped. *)
Lemma dropped_same {A} I K w (x : nat -> A) : (forall i, (I <= i < I + K)%nat -> w i = 0) ->
  same_distribution (I + K) w x I w x.
Proof.
  intros H f. induction K as [|K IH]; [rewrite Nat.add_0_r; reflexivity|].
  rewrite Nat.add_succ_r. cbn [sumn]. rewrite (H (I + K)%nat) by lia. rewrite IH by (intros; apply H; lia). ring.
Qed.
Lemma same_sym {A} I w (x : nat -> A) I' w' x' : same_distribution I w x I' w' x' -> same_distribution I' w' x' I w x.
Proof. intros H f. symmetry. apply H. Qed.
Lemma same_trans {A} I w (x : nat -> A) I' w' x' I'' w'' x'' :
  same_distribution I w x I' w' x' -> same_distribution I' w' x' I'' w'' x'' -> same_distribution I w x I'' w'' x''.
Proof. intros H H' f. rewrite H. apply H'. Qed.
