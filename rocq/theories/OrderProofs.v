(** Proofs that outputs are in the order of the data and otherwise do not depend on it. *)
From Coq Require Import Reals Lra Lia List Bool Arith Permutation FunctionalExtensionality.
From Verif Require Import Base FltModel IterModel DemandModel SupplyModel ConvModel WelfareModel OrderSpec.
Import ListNotations.
Local Open Scope R_scope.

Lemma sumn_list n f : sumn n f = fold_right Rplus 0 (map f (seq 0 n)).
Proof.
  induction n as [|n IH]; [reflexivity|].
  rewrite seq_S, map_app, fold_right_app; cbn [map fold_right sumn plus].
  rewrite IH. generalize (map f (seq 0 n)) as l. intros l. induction l as [|a l IHl]; cbn; [lra|].
  rewrite <- IHl. ring.
Qed.

Lemma fold_perm l l' : Permutation l l' -> fold_right Rplus 0 l = fold_right Rplus 0 l'.
Proof. induction 1; cbn; lra. Qed.

Lemma renumbers_perm n p : renumbers n p -> Permutation (map p (seq 0 n)) (seq 0 n).
Proof.
  intros [Hb [Hi _]]. apply NoDup_Permutation_bis.
  - apply NoDup_nth with (d := p 0%nat). rewrite map_length, seq_length. intros i j Hi' Hj E.
    rewrite !(map_nth p (seq 0 n) 0%nat) in E. rewrite !seq_nth in E by assumption. apply Hi; assumption.
  - rewrite map_length. lia.
  - intros y Hy. apply in_map_iff in Hy. destruct Hy as [x [<- Hx]]. apply in_seq in Hx. apply in_seq.
    specialize (Hb x ltac:(lia)). lia.
Qed.

Lemma sumn_renumber n p f : renumbers n p -> sumn n (fun j => f (p j)) = sumn n f.
Proof.
  intros H. rewrite !sumn_list. rewrite <- (map_map p f). apply fold_perm. apply Permutation_map, renumbers_perm, H.
Qed.

Lemma renumbers_onto n p k : renumbers n p -> (k < n)%nat -> exists j, (j < n)%nat /\ p j = k.
Proof.
  intros H Hk. assert (Hin : In k (map p (seq 0 n))).
  { apply (Permutation_in _ (Permutation_sym (renumbers_perm n p H))). apply in_seq. lia. }
  apply in_map_iff in Hin. destruct Hin as [j [E Hj]]. apply in_seq in Hj. exists j. split; [lia|exact E].
Qed.

Lemma maxn_renumber n p f : (0 < n)%nat -> renumbers n p -> maxn (pred n) (fun j => f (p j)) = maxn (pred n) f.
Proof.
  intros Hn H. apply Rle_antisym.
  - apply maxn_lub. intros k Hk. apply maxn_ge. destruct H as [Hb _]. specialize (Hb k ltac:(lia)). lia.
  - apply maxn_lub. intros k Hk. destruct (renumbers_onto n p k H) as [j [Hj E]]; [lia|].
    rewrite <- E. apply (maxn_ge (pred n) (fun j => f (p j))). lia.
Qed.

Section Order.
  Variables (J : nat) (p : nat -> nat).
  Hypothesis Hp : renumbers J p.

  Lemma bound j : (j < J)%nat -> (p j < J)%nat.
  Proof. apply (proj1 Hp). Qed.

  Lemma eqb_renumber j k : (j < J)%nat -> (k < J)%nat -> Nat.eqb (p j) (p k) = Nat.eqb j k.
  Proof.
    intros Hj Hk. destruct (Nat.eqb_spec j k) as [->|N]; [apply Nat.eqb_refl|].
    apply Nat.eqb_neq. intros E. apply N. apply (proj1 (proj2 Hp)); assumption.
  Qed.

  Lemma gsum_reorder m x y h : mJ m = J -> (forall j, (j < J)%nat -> y j = x (p j)) ->
    gsum (reorder_market p m) y h = gsum m x h.
  Proof.
    intros HJ E. unfold gsum. cbn [mJ reorder_market gid]. rewrite HJ.
    rewrite <- (sumn_renumber J p (fun j => if Nat.eqb (gid m j) h then x j else 0) Hp).
    apply sumn_ext. intros j Hj. rewrite (E j Hj). reflexivity.
  Qed.

  Lemma sum_reorder x y : (forall j, (j < J)%nat -> y j = x (p j)) -> sumn J y = sumn J x.
  Proof. intros E. rewrite <- (sumn_renumber J p x Hp). apply sumn_ext. exact E. Qed.

  Lemma restrict_reorder c c' x y : reordered_choice J p c c' -> (forall j, (j < J)%nat -> y j = x (p j)) ->
    forall j, (j < J)%nat -> restrict_choice c' y j = restrict_choice c x (p j).
  Proof.
    intros [_ [Ha [Hi He]]] E j Hj. unfold restrict_choice. rewrite Ha, Hi.
    assert (E1 : (match option_map (fun a j => a (p j)) (c_availability c) with
                  | Some a => fun j => y j * a j | None => y end) j
               = (match c_availability c with Some a => fun j => x j * a j | None => x end) (p j)).
    { destruct (c_availability c); cbn [option_map]; rewrite (E j Hj); reflexivity. }
    assert (E2 : forall e e' : nat -> R, e' j = e (p j) ->
       (match c_eliminate c' with Some k => fun j => if Nat.eqb j k then 0 else e' j | None => e' end) j
     = (match c_eliminate c with Some k => fun j => if Nat.eqb j k then 0 else e j | None => e end) (p j)).
    { intros e e' Ee. destruct (c_eliminate c') as [k'|], (c_eliminate c) as [k|]; try contradiction.
      - destruct He as [Hk' <-]. rewrite (eqb_renumber j k' Hj Hk'). rewrite Ee. reflexivity.
      - exact Ee. }
    destruct (c_eliminate_ids c) as [mask|]; cbn [option_map].
    - destruct (mask (p j)); [reflexivity|]. apply E2, E1.
    - apply E2, E1.
  Qed.

  Lemma scale_reorder m c c' r h : reordered_choice J p c c' -> scale (reorder_market p m) c' r h = scale m c r h.
  Proof. intros [E _]. unfold scale. rewrite E. reflexivity. Qed.

  Definition related (r r' : (nat -> R) * option (nat -> R)) : Prop :=
    (forall j, (j < J)%nat -> fst r' j = fst r (p j)) /\
    match snd r', snd r with
    | None, None => True
    | Some y, Some x => forall j, (j < J)%nat -> y j = x (p j)
    | _, _ => False
    end.

  Lemma finish_reorder m c c' r n n' x y : mJ m = J -> reordered_choice J p c c' ->
    match n', n with None, None => True | Some b, Some a => forall j, (j < J)%nat -> b j = a (p j) | _, _ => False end ->
    (forall j, (j < J)%nat -> y j = x (p j)) ->
    related (finish_probabilities m c r n x) (finish_probabilities (reorder_market p m) c' r n' y).
  Proof.
    intros HJ Hc Hn E. unfold finish_probabilities. cbn [mJ mH reorder_market gid grho]. rewrite HJ.
    assert (Er := restrict_reorder c c' x y Hc E).
    destruct (Nat.eqb (mH m) 0); split; cbn [fst snd]; try exact I.
    - intros j Hj. rewrite (scale_reorder m c c' r 0 Hc). rewrite (sum_reorder _ _ Er).
      f_equal. destruct n' as [b|], n as [a|]; try contradiction; [apply Hn; exact Hj|apply Er; exact Hj].
    - intros j Hj. rewrite (gsum_reorder m _ _ _ HJ Er). rewrite (Er j Hj). rewrite (scale_reorder m c c' r _ Hc).
      f_equal. f_equal. f_equal. apply sumn_ext. intros b _. rewrite (gsum_reorder m _ _ _ HJ Er). reflexivity.
    - intros j Hj. rewrite (gsum_reorder m _ _ _ HJ Er). rewrite (Er j Hj). reflexivity.
  Qed.

  Lemma reduction_reorder m u : mJ m = J -> (0 < J)%nat ->
    utility_reduction (reorder_market p m) (fun j => u (p j)) = utility_reduction m u.
  Proof. intros HJ H0. unfold utility_reduction. cbn [mJ reorder_market]. rewrite HJ, maxn_renumber; [reflexivity|exact H0|exact Hp]. Qed.

  Lemma linear_reorder m c c' safe delta mu : mJ m = J -> (0 < J)%nat -> reordered_choice J p c c' ->
    related (probabilities_linear m c safe delta mu)
      (probabilities_linear (reorder_market p m) c' safe (fun j => delta (p j)) (fun j => mu (p j))).
  Proof.
    intros HJ H0 Hc. unfold probabilities_linear. destruct safe.
    - change (scaled_utilities (reorder_market p m) (fun j => delta (p j)) (fun j => mu (p j)))
        with (fun j => scaled_utilities m delta mu (p j)).
      rewrite (reduction_reorder m (scaled_utilities m delta mu) HJ H0).
      apply finish_reorder; try assumption; [exact I|]. intros j Hj. reflexivity.
    - apply finish_reorder; try assumption; [exact I|]. intros j Hj. reflexivity.
  Qed.

  Lemma full_reordered : reordered_choice J p full_choice full_choice.
  Proof. repeat split. Qed.

  Lemma shares_reorder m a safe delta j : mJ m = J -> (j < J)%nat ->
    market_shares (reorder_market p m) (reorder_agents p a) safe (fun j => delta (p j)) j = market_shares m a safe delta (p j).
  Proof.
    intros HJ Hj. unfold market_shares. cbn [aI aw amu reorder_agents]. apply sumn_ext. intros i _. f_equal.
    apply (proj1 (linear_reorder m full_choice full_choice safe delta (amu a i) HJ ltac:(lia) full_reordered)). exact Hj.
  Qed.

  Lemma contraction_reorder m a safe bounds shares x j : mJ m = J -> (j < J)%nat ->
    contraction (reorder_market p m) (reorder_agents p a) safe bounds (fun j => shares (p j)) (fun j => x (p j)) j
    = contraction m a safe bounds shares x (p j).
  Proof. intros HJ Hj. unfold contraction. rewrite (shares_reorder m a safe x j HJ Hj). reflexivity. Qed.

  Lemma clipped_reorder m a safe bounds x j : mJ m = J -> (j < J)%nat ->
    clipped_shares (reorder_market p m) (reorder_agents p a) safe bounds (fun j => x (p j)) j
    = clipped_shares m a safe bounds x (p j).
  Proof. intros HJ Hj. unfold clipped_shares. rewrite (shares_reorder m a safe x j HJ Hj). reflexivity. Qed.

  Lemma nonlinear_reorder m a safe num x i j : mJ m = J -> (j < J)%nat ->
    nonlinear_probabilities (reorder_market p m) (reorder_agents p a) safe num (fun j => x (p j)) i j
    = nonlinear_probabilities m a safe num x i (p j).
  Proof.
    intros HJ Hj. unfold nonlinear_probabilities. cbn [aI aw amu reorder_agents mJ reorder_market]. rewrite HJ.
    rewrite (maxn_renumber J p (amu a i)); [|lia|exact Hp]. unfold probabilities_nonlinear.
    eapply (proj1 (finish_reorder m full_choice full_choice _ _ _ _ _ HJ full_reordered _ _)); exact Hj.
    Unshelve.
    - destruct num; [|exact I]. destruct safe; intros; reflexivity.
    - intros k Hk. cbn [mH rho reorder_market gid grho]. destruct safe; reflexivity.
  Qed.

  Lemma nonlinear_contraction_reorder m a safe shares x j : mJ m = J -> (j < J)%nat ->
    nonlinear_contraction (reorder_market p m) (reorder_agents p a) safe (fun j => shares (p j)) (fun j => x (p j)) j
    = nonlinear_contraction m a safe shares x (p j).
  Proof.
    intros HJ Hj. unfold nonlinear_contraction. cbn [aI aw reorder_agents].
    change (mH (reorder_market p m)) with (mH m). change (rho (reorder_market p m) j) with (rho m (p j)).
    destruct (Nat.eqb (mH m) 0).
    - f_equal. apply sumn_ext. intros i _. rewrite nonlinear_reorder by assumption. reflexivity.
    - f_equal. f_equal. f_equal. apply sumn_ext. intros i _. rewrite nonlinear_reorder by assumption. reflexivity.
  Qed.

  Lemma closed_form_reorder m shares j : mJ m = J -> (j < J)%nat ->
    closed_form_delta (reorder_market p m) (fun j => shares (p j)) j = closed_form_delta m shares (p j).
  Proof.
    intros HJ Hj. unfold closed_form_delta. cbn [mJ mH gid eps_scale reorder_market]. rewrite HJ.
    rewrite (sumn_renumber J p shares Hp). rewrite (gsum_reorder m shares (fun j => shares (p j)) _ HJ (fun j _ => eq_refl)).
    reflexivity.
  Qed.

  (* ---------- Derivatives ---------- *)
  Section Full.
    Variable M : full_market.
    Hypothesis HJ : mJ (fm M) = J.
    Let M' := reorder_full p M.

    Lemma probs_reorder delta mu i j : (j < J)%nat ->
      probs (fm M') (fun j => delta (p j)) (fun i j => mu i (p j)) i j = probs (fm M) delta mu i (p j).
    Proof.
      intros Hj. apply (proj1 (linear_reorder (fm M) full_choice full_choice true delta (mu i) HJ ltac:(lia) full_reordered)).
      exact Hj.
    Qed.
    Lemma conds_reorder delta mu i j : (j < J)%nat ->
      conds (fm M') (fun j => delta (p j)) (fun i j => mu i (p j)) i j = conds (fm M) delta mu i (p j).
    Proof.
      intros Hj. unfold conds.
      assert (H := proj2 (linear_reorder (fm M) full_choice full_choice true delta (mu i) HJ ltac:(lia) full_reordered)).
      change (fm M') with (reorder_market p (fm M)).
      destruct (snd (probabilities_linear (reorder_market p (fm M)) full_choice true (fun j => delta (p j)) (fun j => mu i (p j)))),
        (snd (probabilities_linear (fm M) full_choice true delta (mu i))); try contradiction; [apply H; exact Hj|reflexivity].
    Qed.

    (** Utilities and their derivatives are those of the products. *)
    Lemma delta_reorder x : update_delta M' (fun j => x (p j)) = fun j => update_delta M x (p j).
    Proof. reflexivity. Qed.
    Lemma mu_reorder x : update_mu M' (fun j => x (p j)) = fun i j => update_mu M x i (p j).
    Proof. reflexivity. Qed.
    Lemma derivatives_reorder s x : utility_derivatives M' s (fun j => x (p j)) = fun i j => utility_derivatives M s x i (p j).
    Proof. destruct s; reflexivity. Qed.

    Lemma shares_at_reorder x j : (j < J)%nat -> shares_at M' (fun j => x (p j)) j = shares_at M x (p j).
    Proof.
      intros Hj. unfold shares_at. rewrite delta_reorder, mu_reorder. change (fI M') with (fI M). change (fw M') with (fw M).
      apply sumn_ext. intros i _. rewrite probs_reorder by exact Hj. reflexivity.
    Qed.

    Lemma lamda_reorder x j : (j < J)%nat -> lamda_at M' (fun j => x (p j)) j = lamda_at M x (p j).
    Proof.
      intros Hj. unfold lamda_at. rewrite delta_reorder, mu_reorder, derivatives_reorder. unfold capital_lamda.
      change (fI M') with (fI M). change (fw M') with (fw M). change (mH (fm M')) with (mH (fm M)).
      change (rho (fm M') j) with (rho (fm M) (p j)).
      match goal with |- context [sumn (fI M) ?f] => replace (sumn (fI M) f) with (sumn (fI M) (fun i =>
        probs (fm M) (update_delta M x) (update_mu M x) i (p j) * utility_derivatives M false x i (p j) * fw M i)) end; [reflexivity|].
      apply sumn_ext. intros i _. rewrite probs_reorder by exact Hj. reflexivity.
    Qed.

    Lemma gamma_reorder x j k : (j < J)%nat -> (k < J)%nat ->
      gamma_at M' (fun j => x (p j)) j k = gamma_at M x (p j) (p k).
    Proof.
      intros Hj Hk. unfold gamma_at. rewrite delta_reorder, mu_reorder, derivatives_reorder. unfold capital_gamma.
      change (fI M') with (fI M). change (fw M') with (fw M). change (mH (fm M')) with (mH (fm M)).
      change (rho (fm M') j) with (rho (fm M) (p j)). change (membership (fm M') j k) with (membership (fm M) (p j) (p k)).
      assert (E1 : sumn (fI M) (fun i => probs (fm M') (fun j0 => update_delta M x (p j0)) (fun i0 j0 => update_mu M x i0 (p j0)) i j
           * (fw M i * (probs (fm M') (fun j0 => update_delta M x (p j0)) (fun i0 j0 => update_mu M x i0 (p j0)) i k
           * utility_derivatives M false x i (p k)))) =
         sumn (fI M) (fun i => probs (fm M) (update_delta M x) (update_mu M x) i (p j)
           * (fw M i * (probs (fm M) (update_delta M x) (update_mu M x) i (p k) * utility_derivatives M false x i (p k))))).
      { apply sumn_ext. intros i _. rewrite !probs_reorder by assumption. reflexivity. }
      assert (E2 : sumn (fI M) (fun i => conds (fm M') (fun j0 => update_delta M x (p j0)) (fun i0 j0 => update_mu M x i0 (p j0)) i j
           * (fw M i * (probs (fm M') (fun j0 => update_delta M x (p j0)) (fun i0 j0 => update_mu M x i0 (p j0)) i k
           * utility_derivatives M false x i (p k)))) =
         sumn (fI M) (fun i => conds (fm M) (update_delta M x) (update_mu M x) i (p j)
           * (fw M i * (probs (fm M) (update_delta M x) (update_mu M x) i (p k) * utility_derivatives M false x i (p k))))).
      { apply sumn_ext. intros i _. rewrite conds_reorder, probs_reorder by assumption. reflexivity. }
      rewrite E1, E2. reflexivity.
    Qed.

    Lemma jacobian_split x j k : shares_jacobian M x j k = (if Nat.eqb j k then lamda_at M x j else 0) - gamma_at M x j k.
    Proof. reflexivity. Qed.

    Lemma jacobian_reorder x j k : (j < J)%nat -> (k < J)%nat ->
      shares_jacobian M' (fun j => x (p j)) j k = shares_jacobian M x (p j) (p k).
    Proof.
      intros Hj Hk. change (shares_jacobian M' (fun j => x (p j)) j k)
        with ((if Nat.eqb j k then lamda_at M' (fun j => x (p j)) j else 0) - gamma_at M' (fun j => x (p j)) j k).
      rewrite jacobian_split, eqb_renumber by assumption. rewrite lamda_reorder, gamma_reorder by assumption. reflexivity.
    Qed.

    Lemma elasticities_reorder observed j k : (j < J)%nat -> (k < J)%nat ->
      elasticities M' (fun j => observed (p j)) j k = elasticities M observed (p j) (p k).
    Proof.
      intros Hj Hk. unfold elasticities. change (var0 M') with (fun j => var0 M (p j)).
      rewrite jacobian_reorder by assumption. reflexivity.
    Qed.

    Lemma capital_delta_reorder O x j k : (j < J)%nat -> (k < J)%nat ->
      capital_delta M' (fun j k => O (p j) (p k)) (fun j => x (p j)) j k = capital_delta M O x (p j) (p k).
    Proof.
      intros Hj Hk. unfold capital_delta. rewrite eqb_renumber by assumption.
      rewrite lamda_reorder, gamma_reorder by assumption. reflexivity.
    Qed.

    Lemma zeta_reorder O costs x j : (j < J)%nat ->
      zeta M' (fun j k => O (p j) (p k)) (fun j => costs (p j)) (fun j => x (p j)) j = zeta M O costs x (p j).
    Proof.
      intros Hj. unfold zeta. change (mJ (fm M')) with (mJ (fm M)). rewrite HJ.
      rewrite lamda_reorder, shares_at_reorder by assumption. f_equal. f_equal.
      rewrite <- (sumn_renumber J p (fun k => O k (p j) * gamma_at M x k (p j) * (x k - costs k)) Hp).
      apply sumn_ext. intros k Hk. rewrite gamma_reorder by assumption. reflexivity.
    Qed.
    Lemma price_contraction_reorder O costs x j : (j < J)%nat ->
      price_contraction M' (fun j k => O (p j) (p k)) (fun j => costs (p j)) (fun j => x (p j)) j = price_contraction M O costs x (p j).
    Proof. intros Hj. unfold price_contraction. rewrite zeta_reorder by exact Hj. reflexivity. Qed.
    Lemma price_weights_reorder x j : (j < J)%nat ->
      price_weights M' (fun j => x (p j)) j = price_weights M x (p j).
    Proof. intros Hj. unfold price_weights. rewrite lamda_reorder by exact Hj. reflexivity. Qed.

    Lemma aggregate_reorder observed factor :
      aggregate_elasticity M' (fun j => observed (p j)) factor = aggregate_elasticity M observed factor.
    Proof.
      unfold aggregate_elasticity. change (mJ (fm M')) with (mJ (fm M)). rewrite HJ. f_equal.
      apply (sum_reorder (fun j => shares_at M (fun k => (1 + factor) * var0 M k) j - observed j)). intros j Hj.
      change (fun k => (1 + factor) * var0 M' k) with (fun k => (fun l => (1 + factor) * var0 M l) (p k)).
      rewrite shares_at_reorder by exact Hj. reflexivity.
    Qed.
  End Full.

  Lemma diversion_reorder jac jac' j k : (forall j k, (j < J)%nat -> (k < J)%nat -> jac' j k = jac (p j) (p k)) ->
    (j < J)%nat -> (k < J)%nat -> diversion_ratios J jac' j k = diversion_ratios J jac (p j) (p k).
  Proof.
    intros E Hj Hk. unfold diversion_ratios. rewrite eqb_renumber by assumption.
    rewrite (sum_reorder (jac (p j)) (jac' j)) by (intros; apply E; assumption). rewrite !E by assumption. reflexivity.
  Qed.

  Lemma eliminate_reordered k : (k < J)%nat ->
    reordered_choice J p (mk_choice false None (Some (p k)) None) (mk_choice false None (Some k) None).
  Proof. intros Hk. repeat split. exact Hk. Qed.

  Lemma long_run_reorder m a delta observed j k : mJ m = J -> (j < J)%nat -> (k < J)%nat ->
    long_run_diversion (reorder_market p m) (reorder_agents p a) (fun j => delta (p j)) (fun j => observed (p j)) j k
    = long_run_diversion m a delta observed (p j) (p k).
  Proof.
    intros HJ Hj Hk. unfold long_run_diversion. cbn [mJ reorder_market]. rewrite HJ. rewrite eqb_renumber by assumption.
    assert (E : forall l, (l < J)%nat ->
      (shares_without (reorder_market p m) (reorder_agents p a) (fun j => delta (p j)) j l - observed (p l)) / observed (p j)
      = (shares_without m a delta (p j) (p l) - observed (p l)) / observed (p j)).
    { intros l Hl. f_equal. f_equal. unfold shares_without. cbn [aI aw amu reorder_agents]. apply sumn_ext. intros i _. f_equal.
      apply (proj1 (linear_reorder m _ _ true delta (amu a i) HJ ltac:(lia) (eliminate_reordered j Hj))). exact Hl. }
    destruct (Nat.eqb k j).
    - f_equal. apply (sum_reorder (fun l => (shares_without m a delta (p j) l - observed l) / observed (p j))). exact E.
    - apply E, Hk.
  Qed.

  (* ---------- Consumer surplus ---------- *)
  Lemma numerator_reorder m avail mask delta mu : mJ m = J -> (0 < J)%nat ->
    surplus_numerator (reorder_market p m) (option_map (fun a j => a (p j)) avail) (option_map (fun a j => a (p j)) mask)
      (fun j => delta (p j)) (fun j => mu (p j)) = surplus_numerator m avail mask delta mu.
  Proof.
    intros HJ H0. unfold surplus_numerator.
    change (surplus_utilities (reorder_market p m) (fun j => delta (p j)) (fun j => mu (p j)))
      with (fun j => surplus_utilities m delta mu (p j)).
    rewrite (reduction_reorder m (surplus_utilities m delta mu) HJ H0).
    set (r := utility_reduction m (surplus_utilities m delta mu)).
    change (min_rho (reorder_market p m)) with (min_rho m). cbn [mJ mH grho rho_multi reorder_market]. rewrite HJ.
    assert (Er : forall j, (j < J)%nat ->
      restrict_choice (mk_choice false (option_map (fun a j => a (p j)) avail) None (option_map (fun a j => a (p j)) mask))
        (fun j => exp (surplus_utilities m delta mu (p j) - r)) j
      = restrict_choice (mk_choice false avail None mask) (fun j => exp (surplus_utilities m delta mu j - r)) (p j)).
    { apply restrict_reorder; [repeat split|]. intros; reflexivity. }
    destruct (Nat.eqb (mH m) 0).
    - rewrite (sum_reorder _ _ Er). reflexivity.
    - do 3 f_equal. apply sumn_ext. intros h _. rewrite (gsum_reorder m _ _ _ HJ Er). reflexivity.
  Qed.

  Lemma surplus_reorder M avail mask x : mJ (fm M) = J -> (0 < J)%nat ->
    (forall i j k, (i < fI M)%nat -> (j < J)%nat -> (k < J)%nat ->
       utility_derivatives M false (var0 M) i j = utility_derivatives M false (var0 M) i k) ->
    consumer_surplus (reorder_full p M) (fun i => option_map (fun a j => a (p j)) (avail i))
      (option_map (fun a j => a (p j)) mask) (fun j => x (p j)) = consumer_surplus M avail mask x.
  Proof.
    intros HJ H0 Hd. unfold consumer_surplus. cbn [fI fw reorder_full]. apply sumn_ext. intros i Hi. f_equal.
    unfold individual_surplus. rewrite delta_reorder, mu_reorder. change (fm (reorder_full p M)) with (reorder_market p (fm M)).
    rewrite numerator_reorder by assumption.
    change (var0 (reorder_full p M)) with (fun j => var0 M (p j)).
    change (utility_derivatives (reorder_full p M) false (fun j => var0 M (p j)) i 0)
      with (utility_derivatives M false (var0 M) i (p 0%nat)).
    rewrite (Hd i (p 0%nat) 0%nat Hi (bound 0 H0) H0). reflexivity.
  Qed.
End Order.
