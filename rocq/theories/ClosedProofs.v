(** Proofs about logit and nested logit demand without random coefficients. *)
From Coq Require Import Reals Lra Lia ZArith List Bool Arith.
From Verif Require Import Base DemandSpec DemandModel DemandProofs DemandShares DemandElim DemandDeriv SupplyModel SupplySpec SupplyProofs
  WelfareModel WelfareSpec WelfareProofs ClosedSpec.
Local Open Scope R_scope.

Section Market.
  Variable M : full_market.
  Variable a : R.
  Hypothesis T : common_tastes M a.
  Let m := fm M.
  Let J := mJ m.
  Let V := ct_valid M a T.

  Lemma tastes_slope x i j : (j < J)%nat -> utility_derivatives M false x i j = - a.
  Proof.
    intros Hj. unfold utility_derivatives. rewrite eps_div, (ct_random M a T). cbn [sumn].
    rewrite (sumn_ext _ _ (fun k => if uses (fX1 M k) then fbeta M k * dv1 (fX1 M k) j (x j) else 0)) by (intros k _; destruct (uses (fX1 M k)); ring).
    rewrite (ct_slope M a T j (x j) Hj). pose proof (vm_eps _ V). field. lra.
  Qed.

  Variable x : nat -> R.
  Definition prob0 (j : nat) : R := fst (probabilities_linear m full_choice true (update_delta M x) (fun _ => 0)) j.
  Definition cond0 (j : nat) : R := cond_of (probabilities_linear m full_choice true (update_delta M x) (fun _ => 0)) j.
  Lemma mu_zero i j : update_mu M x i j = 0.
  Proof. unfold update_mu, compute_mu. rewrite (ct_random M a T). reflexivity. Qed.
  Lemma same_utility i k : utility m (update_delta M x) (update_mu M x i) k = utility m (update_delta M x) (fun _ => 0) k.
  Proof. unfold utility. rewrite mu_zero. reflexivity. Qed.
  Lemma probs_common i j : (j < J)%nat -> probs m (update_delta M x) (update_mu M x) i j = prob0 j.
  Proof. intros Hj. apply probabilities_ext; [exact V|exact Hj|]. intros k _. apply same_utility. Qed.
  Lemma conds_common i j : (j < J)%nat -> conds m (update_delta M x) (update_mu M x) i j = cond0 j.
  Proof. intros Hj. rewrite conds_cond. apply cond_ext; [exact V|exact Hj|]. intros k _. apply same_utility. Qed.
  Lemma shares_common j : (j < J)%nat -> shares_at M x j = prob0 j.
  Proof.
    intros Hj. unfold shares_at. rewrite (sumn_ext _ _ (fun i => prob0 j * fw M i)) by (intros i _; rewrite <- (probs_common i j Hj); reflexivity).
    rewrite sumn_scal, (ct_weights M a T). ring.
  Qed.
  Let s := shares_at M x.

  Lemma prob0_nested j : (j < J)%nat -> prob0 j = nested J (grpn m) (gidx m) (grhox m) all_goods true (utility m (update_delta M x) (fun _ => 0)) j.
  Proof. intros Hj. unfold prob0. rewrite full_choice_with, probabilities_nested by (exact V || exact Hj). rewrite included_all. reflexivity. Qed.

  (** Conditional probabilities are shares in nests. *)
  Lemma nest_share_marginal j : (j < J)%nat -> mH m <> O ->
    nest_share m prob0 j = group_share J (mH m) (gid m) (grho m) all_goods true (utility m (update_delta M x) (fun _ => 0)) (gid m j).
  Proof.
    intros Hj HH. unfold nest_share, together. destruct (Nat.eqb_spec (mH m) 0) as [|_]; [contradiction|]. cbn [negb andb]. fold J.
    set (U := utility m (update_delta M x) (fun _ => 0)).
    rewrite (sumn_ext J _ (fun k => (if Nat.eqb (gid m k) (gid m j) then within_group J (gid m) (grho m) all_goods U k else 0)
      * group_share J (mH m) (gid m) (grho m) all_goods true U (gid m j))).
    - rewrite sumn_scal_r, within_group_total.
      rewrite (existsb_intro (fun k => (all_goods k && Nat.eqb (gid m k) (gid m j))%bool) J j); [ring|exact Hj|].
      unfold all_goods. rewrite Nat.eqb_refl. reflexivity.
    - intros k Hk. rewrite (Nat.eqb_sym (gid m k)). destruct (Nat.eqb_spec (gid m j) (gid m k)) as [E|_]; [|ring].
      rewrite (prob0_nested k Hk). unfold nested, gidx, grhox, grpn. fold U.
      destruct (Nat.eqb_spec (mH m) 0) as [|_]; [contradiction|]. rewrite E. reflexivity.
  Qed.
  Lemma cond0_within j : (j < J)%nat -> mH m <> O -> cond0 j = share_in_nest m prob0 j.
  Proof.
    intros Hj HH. unfold cond0. rewrite cond_spec by (exact V || exact HH || exact Hj). unfold share_in_nest. rewrite nest_share_marginal by assumption.
    rewrite (prob0_nested j Hj). unfold nested, gidx, grhox, grpn. destruct (Nat.eqb_spec (mH m) 0) as [|_]; [contradiction|].
    set (U := utility m (update_delta M x) (fun _ => 0)). set (G := group_share J (mH m) (gid m) (grho m) all_goods true U (gid m j)).
    change (within_group J (gid m) (grho m) all_goods U j = within_group J (gid m) (grho m) all_goods U j * G / G). assert (P : 0 < G).
    { unfold G, group_share. apply Rdiv_lt_0_compat; [|apply weights_pos]. unfold group_weight.
      rewrite (existsb_intro (fun k => (all_goods k && Nat.eqb (gid m k) (gid m j))%bool) J j); [apply Rpower_pos|exact Hj|].
      unfold all_goods. rewrite Nat.eqb_refl. reflexivity. }
    field. lra.
  Qed.
  Lemma prob0_pos j : (j < J)%nat -> 0 < prob0 j.
  Proof. intros Hj. rewrite (prob0_nested j Hj). apply nested_pos; [exact Hj|apply gidx_lt; [exact V|exact Hj]|reflexivity]. Qed.
  Lemma share_pos j : (j < J)%nat -> 0 < s j.
  Proof. intros Hj. unfold s. rewrite shares_common by exact Hj. apply prob0_pos. exact Hj. Qed.
  Lemma nest_share_s j : nest_share m s j = nest_share m prob0 j.
  Proof. apply sumn_ext. intros k Hk. destruct (together m j k); [|reflexivity]. apply shares_common. exact Hk. Qed.
  Lemma in_nest_s j : (j < J)%nat -> share_in_nest m s j = share_in_nest m prob0 j.
  Proof. intros Hj. unfold share_in_nest. rewrite nest_share_s. unfold s. rewrite shares_common by exact Hj. reflexivity. Qed.
  Lemma outside_pos : 0 < outside_share m s.
  Proof.
    unfold outside_share. fold J. rewrite (sumn_ext J s (nested J (grpn m) (gidx m) (grhox m) all_goods true (utility m (update_delta M x) (fun _ => 0)))).
    - pose proof (nested_total_lt_1 J (grpn m) (gidx m) (grhox m) all_goods (utility m (update_delta M x) (fun _ => 0))) as L.
      assert (G : forall j, (j < J)%nat -> (gidx m j < grpn m)%nat) by (intros j Hj; apply gidx_lt; [exact V|exact Hj]). specialize (L G). lra.
    - intros j Hj. unfold s. rewrite shares_common, prob0_nested by exact Hj. reflexivity.
  Qed.
  Lemma nesting_lt j : (j < J)%nat -> nesting m j < 1.
  Proof.
    intros Hj. unfold nesting. destruct (Nat.eqb_spec (mH m) 0) as [|HH]; [lra|]. apply (vm_rho _ V HH). apply (vm_gid _ V HH). exact Hj.
  Qed.
  Lemma nest_share_pos j : (j < J)%nat -> mH m <> O -> 0 < nest_share m s j.
  Proof.
    intros Hj HH. unfold nest_share. fold J. apply sumn_pos.
    - intros k Hk. destruct (together m j k); [left; apply share_pos; exact Hk|lra].
    - exists j. split; [exact Hj|]. unfold together. rewrite Nat.eqb_refl. destruct (Nat.eqb_spec (mH m) 0) as [|_]; [contradiction|]. cbn. apply share_pos. exact Hj.
  Qed.

  Lemma jacobian_closed j k : (j < J)%nat -> (k < J)%nat -> shares_jacobian M x j k = share_slope m a s j k.
  Proof.
    intros Hj Hk. unfold shares_jacobian, jacobian_of, capital_lamda, capital_gamma. fold m.
    rewrite (sumn_ext (fI M) (fun i => probs m (update_delta M x) (update_mu M x) i j * utility_derivatives M false x i j * fw M i) (fun i => - a * s j * fw M i))
      by (intros i _; rewrite (probs_common i j Hj), (tastes_slope x i j Hj); unfold s; rewrite (shares_common j Hj); ring).
    rewrite (sumn_ext (fI M) (fun i => probs m (update_delta M x) (update_mu M x) i j * (fw M i * (probs m (update_delta M x) (update_mu M x) i k * utility_derivatives M false x i k)))
      (fun i => - a * s j * s k * fw M i))
      by (intros i _; rewrite (probs_common i j Hj), (probs_common i k Hk), (tastes_slope x i k Hk); unfold s; rewrite (shares_common j Hj), (shares_common k Hk); ring).
    rewrite (sumn_ext (fI M) (fun i => conds m (update_delta M x) (update_mu M x) i j * (fw M i * (probs m (update_delta M x) (update_mu M x) i k * utility_derivatives M false x i k)))
      (fun i => - a * cond0 j * s k * fw M i))
      by (intros i _; rewrite (conds_common i j Hj), (probs_common i k Hk), (tastes_slope x i k Hk); unfold s; rewrite (shares_common k Hk); ring).
    rewrite !sumn_scal, (ct_weights M a T). unfold share_slope, nesting, together, membership, rho. fold m.
    destruct (Nat.eqb_spec (mH m) 0) as [HH|HH]; cbn [negb andb].
    - destruct (Nat.eqb_spec j k) as [<-|N]; field.
    - rewrite (cond0_within j Hj HH), <- (in_nest_s j Hj).
      assert (L := vm_rho _ V HH _ (vm_gid _ V HH j Hj)). fold m in L.
      destruct (Nat.eqb_spec j k) as [<-|N].
      + rewrite Nat.eqb_refl. field. lra.
      + destruct (Nat.eqb (gid m j) (gid m k)); field; lra.
  Qed.

  (** Shares of products in a nest sum to one. *)
  Lemma in_nest_total k : (k < J)%nat -> mH m <> O -> sumn J (fun j => if together m j k then share_in_nest m s j else 0) = 1.
  Proof.
    intros Hk HH. assert (P := nest_share_pos k Hk HH).
    rewrite (sumn_ext J _ (fun j => (if together m k j then s j else 0) * / nest_share m s k)).
    - rewrite sumn_scal_r. change (sumn J (fun j => if together m k j then s j else 0)) with (nest_share m s k). field. lra.
    - intros j _. unfold share_in_nest. assert (E : together m j k = together m k j) by (unfold together; rewrite (Nat.eqb_sym (gid m j)); reflexivity).
      rewrite E. destruct (together m k j) eqn:K; [|ring]. unfold Rdiv. f_equal. f_equal.
      unfold nest_share. apply sumn_ext. intros l _. unfold together in *. apply andb_prop in K. destruct K as [_ K]. apply Nat.eqb_eq in K. rewrite K. reflexivity.
  Qed.
  Lemma outside_slope k : (k < J)%nat -> sumn J (fun j => shares_jacobian M x j k) = - (a * outside_share m s * s k).
  Proof.
    intros Hk. rewrite (sumn_ext J _ (fun j => share_slope m a s j k)) by (intros j Hj; apply jacobian_closed; assumption).
    assert (L := nesting_lt k Hk).
    set (r := nesting m k) in *. set (q := a * s k * (r / (1 - r))).
    rewrite (sumn_ext J _ (fun j => a * s k * s j + q * (if together m j k then share_in_nest m s j else 0) + (if Nat.eqb j k then - (a / (1 - r)) * s k else 0))).
    - rewrite !sumn_plus, !sumn_scal, (sumn_delta J k (fun _ => - (a / (1 - r)) * s k) Hk). unfold outside_share. fold J.
      destruct (Nat.eq_dec (mH m) 0) as [HH|HH].
      + assert (R0 : r = 0) by (unfold r, nesting; rewrite HH; reflexivity). unfold q. rewrite R0. field.
      + rewrite (in_nest_total k Hk HH). unfold q. field. lra.
    - intros j Hj. unfold share_slope. destruct (Nat.eqb_spec j k) as [->|N].
      + fold r. unfold together. rewrite Nat.eqb_refl. destruct (Nat.eqb_spec (mH m) 0) as [HH|HH]; cbn [negb andb].
        * assert (R0 : r = 0) by (unfold r, nesting; rewrite HH; reflexivity). unfold q. rewrite R0. field.
        * unfold q. field. lra.
      + destruct (together m j k) eqn:K; [|unfold q; ring].
        assert (E : nesting m j = r).
        { unfold r, nesting. unfold together in K. apply andb_prop in K. destruct K as [_ K]. apply Nat.eqb_eq in K. rewrite K. reflexivity. }
        rewrite E. unfold q. field. lra.
  Qed.

  Lemma slope_symmetric j k : (j < J)%nat -> (k < J)%nat -> share_slope m a s j k = share_slope m a s k j.
  Proof.
    intros Hj Hk. unfold share_slope. rewrite (Nat.eqb_sym k j). destruct (Nat.eqb_spec j k) as [<-|N]; [reflexivity|].
    assert (E : together m k j = together m j k) by (unfold together; rewrite (Nat.eqb_sym (gid m j)); reflexivity). rewrite E.
    destruct (together m j k) eqn:K; [|ring]. unfold together in K. apply andb_prop in K. destruct K as [K0 K]. apply Nat.eqb_eq in K.
    assert (HH : mH m <> O) by (intros HH; rewrite HH in K0; discriminate).
    assert (E1 : nesting m k = nesting m j) by (unfold nesting; rewrite K; reflexivity).
    assert (E2 : nest_share m s k = nest_share m s j) by (unfold nest_share, together; rewrite K; reflexivity).
    rewrite E1. unfold share_in_nest. rewrite E2. assert (P := nest_share_pos j Hj HH). assert (L := nesting_lt j Hj). field. split; lra.
  Qed.
  Lemma share_lt_1 j : (j < J)%nat -> s j < 1.
  Proof.
    intros Hj. assert (P := outside_pos). unfold outside_share in P. fold J in P.
    assert (L : s j <= sumn J s).
    { rewrite <- (sumn_delta J j s Hj). apply sumn_le. intros k Hk. destruct (Nat.eqb k j); [lra|left; apply share_pos; exact Hk]. }
    lra.
  Qed.
  Lemma in_nest_bounds j : (j < J)%nat -> mH m <> O -> s j <= share_in_nest m s j <= 1.
  Proof.
    intros Hj HH. assert (P := nest_share_pos j Hj HH). assert (Q := share_pos j Hj). assert (O := outside_pos). unfold outside_share in O. fold J in O.
    assert (A : nest_share m s j <= sumn J s).
    { apply sumn_le. intros k Hk. destruct (together m j k); [lra|left; apply share_pos; exact Hk]. }
    assert (B : s j <= nest_share m s j).
    { unfold nest_share. fold J. rewrite <- (sumn_delta J j s Hj) at 1. apply sumn_le. intros k Hk. destruct (Nat.eqb_spec k j) as [->|_].
      - unfold together. rewrite Nat.eqb_refl. destruct (Nat.eqb_spec (mH m) 0) as [|_]; [contradiction|]. cbn. lra.
      - destruct (together m j k); [left; apply share_pos; exact Hk|lra]. }
    unfold share_in_nest. split.
    - apply Rmult_le_reg_r with (nest_share m s j); [exact P|]. replace (s j / nest_share m s j * nest_share m s j) with (s j) by (field; lra).
      rewrite <- (Rmult_1_r (s j)) at 2. apply Rmult_le_compat_l; lra.
    - apply Rmult_le_reg_r with (nest_share m s j); [exact P|]. replace (s j / nest_share m s j * nest_share m s j) with (s j) by (field; lra). lra.
  Qed.
  Lemma own_factor_pos j : (j < J)%nat -> 0 < 1 - nesting m j * share_in_nest m s j - (1 - nesting m j) * s j.
  Proof.
    intros Hj. assert (L := nesting_lt j Hj). assert (Q := share_lt_1 j Hj). unfold nesting in *. destruct (Nat.eqb_spec (mH m) 0) as [HH|HH]; [lra|].
    destruct (in_nest_bounds j Hj HH) as [A B]. set (r := grho m (gid m j)) in *. set (w := share_in_nest m s j) in *.
    replace (1 - r * w - (1 - r) * s j) with ((1 - s j) - r * (w - s j)) by ring.
    destruct (Rle_dec r 0) as [N|N]; [pose proof (Rmult_le_pos (- r) (w - s j)); lra|].
    assert (r * (w - s j) <= r * (1 - s j)) by (apply Rmult_le_compat_l; lra). assert (r * (1 - s j) < 1 * (1 - s j)) by (apply Rmult_lt_compat_r; lra). lra.
  Qed.

  Lemma elasticities_closed observed j k : x = var0 M -> (j < J)%nat -> (k < J)%nat -> observed j = s j ->
    elasticities M observed j k = share_slope m a s j k * x k / s j.
  Proof. intros X Hj Hk E. unfold elasticities. rewrite E, <- X, (jacobian_closed j k Hj Hk). reflexivity. Qed.

  Lemma elasticity_forms j k : (j < J)%nat -> (k < J)%nat ->
    share_slope m a s j k * x k / s j =
      (let r := nesting m j in let w := share_in_nest m s j in
       if Nat.eqb j k then - (a * x j * (1 - r * w - (1 - r) * s j) / (1 - r))
       else if together m j k then a * x k * (s k + r / (1 - r) * share_in_nest m s k)
       else a * x k * s k).
  Proof.
    intros Hj Hk. cbv zeta. assert (L := nesting_lt j Hj). assert (P := share_pos j Hj). unfold share_slope. destruct (Nat.eqb_spec j k) as [<-|N]; [field; split; lra|].
    destruct (together m j k) eqn:C; [|field; lra]. unfold together in C. apply andb_prop in C. destruct C as [C0 C]. apply Nat.eqb_eq in C.
    assert (HH : mH m <> O) by (intros HH; rewrite HH in C0; discriminate).
    assert (E : nest_share m s k = nest_share m s j) by (unfold nest_share, together; rewrite C; reflexivity).
    unfold share_in_nest. rewrite E. assert (Q := nest_share_pos j Hj HH). field. repeat split; lra.
  Qed.

  Lemma diversion_closed j k : 0 < a -> (j < J)%nat -> (k < J)%nat ->
    diversion_ratios J (shares_jacobian M x) j k =
      (let factor := (1 - nesting m j) / (1 - nesting m j * share_in_nest m s j - (1 - nesting m j) * s j) in
       if Nat.eqb j k then outside_share m s * factor
       else if together m j k then (s k + nesting m j / (1 - nesting m j) * share_in_nest m s k) * factor else s k * factor).
  Proof.
    intros Ha Hj Hk. cbv zeta. unfold diversion_ratios.
    assert (F := own_factor_pos j Hj). assert (L := nesting_lt j Hj). assert (P := share_pos j Hj).
    rewrite (jacobian_closed j j Hj Hj). unfold share_slope at 1. rewrite Nat.eqb_refl.
    destruct (Nat.eqb_spec j k) as [<-|N].
    - rewrite (sumn_ext J (shares_jacobian M x j) (fun l => shares_jacobian M x l j))
        by (intros l Hl; rewrite !jacobian_closed by assumption; apply slope_symmetric; assumption).
      rewrite (outside_slope j Hj). field. lra.
    - rewrite (jacobian_closed j k Hj Hk), (slope_symmetric j k Hj Hk). unfold share_slope. rewrite (Nat.eqb_sym k j). destruct (Nat.eqb_spec j k) as [|_]; [contradiction|].
      assert (E : together m k j = together m j k) by (unfold together; rewrite (Nat.eqb_sym (gid m j)); reflexivity). rewrite E.
      destruct (together m j k) eqn:K; [|field; lra]. unfold together in K. apply andb_prop in K. destruct K as [K0 K]. apply Nat.eqb_eq in K.
      assert (E1 : nesting m k = nesting m j) by (unfold nesting; rewrite K; reflexivity). rewrite E1. field. lra.
  Qed.

  (** Markups. *)
  Variable firm : nat -> Z.
  Let O := owned firm.
  Let f_share (j : nat) (v : nat -> R) : R := sumn J (fun k => if Z.eqb (firm j) (firm k) then s k * v k else 0).
  Let fn_share (j : nat) (v : nat -> R) : R := sumn J (fun k => if (Z.eqb (firm j) (firm k) && together m j k)%bool then share_in_nest m s k * v k else 0).
  Variable eta : nat -> R.
  Hypothesis Ha : 0 < a.
  Hypothesis E : markup_equation J O (shares_jacobian M x) s eta.

  Lemma together_nesting j k : together m j k = true -> nesting m k = nesting m j /\ mH m <> 0%nat /\ gid m j = gid m k.
  Proof.
    unfold together, nesting. intros K. apply andb_prop in K. destruct K as [K0 K]. apply Nat.eqb_eq in K. rewrite K. split; [reflexivity|].
    split; [|reflexivity]. intros HH. rewrite HH in K0. discriminate.
  Qed.
  Lemma markup_step j : (j < J)%nat -> eta j = (1 - nesting m j) * (/ a + f_share j eta) + nesting m j * fn_share j eta.
  Proof.
    intros Hj. assert (L := nesting_lt j Hj). assert (P := share_pos j Hj). pose proof (E j Hj) as Q.
    set (r := nesting m j) in *.
    rewrite (sumn_ext J _ (fun k => a * s j * (if Z.eqb (firm j) (firm k) then s k * eta k else 0)
       + a * s j * (r / (1 - r)) * (if (Z.eqb (firm j) (firm k) && together m j k)%bool then share_in_nest m s k * eta k else 0)
       + (if Nat.eqb k j then - (a / (1 - r)) * s k * eta k else 0))) in Q.
    - rewrite !sumn_plus, !sumn_scal, (sumn_delta J j (fun k => - (a / (1 - r)) * s k * eta k) Hj) in Q. fold (f_share j eta) (fn_share j eta) in Q.
      assert (X : s j * (1 + a * f_share j eta + a * (r / (1 - r)) * fn_share j eta - a / (1 - r) * eta j) = 0) by lra.
      apply Rmult_integral in X. destruct X as [X|X]; [lra|].
      assert (Y : eta j = (1 - r) / a * (1 + a * f_share j eta + a * (r / (1 - r)) * fn_share j eta)).
      { assert (Z : 1 + a * f_share j eta + a * (r / (1 - r)) * fn_share j eta = a / (1 - r) * eta j) by lra. rewrite Z. field. lra. }
      rewrite Y at 1. field. lra.
    - intros k Hk. unfold O, owned. destruct (Z.eqb_spec (firm j) (firm k)) as [Ef|Nf]; cbn [andb].
      + rewrite (jacobian_closed k j Hk Hj). unfold share_slope. destruct (Nat.eqb_spec k j) as [->|N].
        * fold r. unfold together. rewrite Nat.eqb_refl. destruct (Nat.eqb_spec (mH m) 0) as [HH|HH]; cbn [negb andb].
          -- assert (R0 : r = 0) by (unfold r, nesting; rewrite HH; reflexivity). rewrite R0. field.
          -- field. lra.
        * assert (K : together m k j = together m j k) by (unfold together; rewrite (Nat.eqb_sym (gid m j)); reflexivity). rewrite K.
          destruct (together m j k) eqn:K'; [|ring]. destruct (together_nesting j k K') as (K1 & _). rewrite K1. fold r. field. lra.
      + destruct (Nat.eqb_spec k j) as [->|N]; [contradiction|]. ring.
  Qed.

  (** Products of the same firm and nest have the same markup. *)
  Lemma markup_common j k : (j < J)%nat -> (k < J)%nat -> firm j = firm k -> nesting m j = 0 /\ nesting m k = 0 \/ together m j k = true -> eta j = eta k.
  Proof.
    intros Hj Hk F C. rewrite (markup_step j Hj), (markup_step k Hk).
    assert (A : f_share j eta = f_share k eta) by (unfold f_share; rewrite F; reflexivity). rewrite A.
    destruct C as [(-> & ->)|C]; [ring|]. destruct (together_nesting j k C) as (K1 & _ & K2).
    assert (B : fn_share j eta = fn_share k eta) by (unfold fn_share, together; rewrite F, K2; reflexivity). rewrite K1, B. reflexivity.
  Qed.

  (** What the firm sells of its nest. *)
  Let W (j : nat) : R := firm_in_nest m firm s j.
  Lemma fn_common j : (j < J)%nat -> fn_share j eta = W j * eta j.
  Proof.
    intros Hj. unfold W, firm_in_nest. fold J. rewrite <- sumn_scal_r. unfold fn_share. apply sumn_ext. intros k Hk.
    destruct (Z.eqb_spec (firm j) (firm k)) as [F|]; cbn [andb]; [|ring]. destruct (together m j k) eqn:C; [|ring].
    rewrite (markup_common j k Hj Hk F (or_intror C)). ring.
  Qed.
  Lemma W_bounds j : (j < J)%nat -> 0 <= W j <= 1.
  Proof.
    intros Hj. unfold W, firm_in_nest. fold J.
    assert (Q : forall k, (k < J)%nat -> together m j k = true -> 0 < share_in_nest m s k).
    { intros k Hk C. destruct (together_nesting j k C) as (_ & HH & _). unfold share_in_nest. apply Rdiv_lt_0_compat; [apply share_pos; exact Hk|apply nest_share_pos; assumption]. }
    split.
    - apply sumn_nonneg. intros k Hk. destruct (Z.eqb (firm j) (firm k)); cbn [andb]; [|lra]. destruct (together m j k) eqn:C; [|lra]. left. apply Q; assumption.
    - destruct (Nat.eq_dec (mH m) 0) as [HH|HH].
      + rewrite (sumn_ext J _ (fun _ => 0)); [rewrite sumn_zero; lra|]. intros k _. unfold together. rewrite HH. cbn. rewrite andb_false_r. reflexivity.
      + rewrite <- (in_nest_total j Hj HH). apply sumn_le. intros k Hk.
        assert (K : together m k j = together m j k) by (unfold together; rewrite (Nat.eqb_sym (gid m j)); reflexivity). rewrite K.
        destruct (together m j k) eqn:C; [|rewrite andb_false_r; lra]. rewrite andb_true_r. pose proof (Q k Hk C). destruct (Z.eqb (firm j) (firm k)); lra.
  Qed.
  Lemma denominator_pos j : (j < J)%nat -> 0 < 1 - nesting m j * W j.
  Proof.
    intros Hj. assert (L := nesting_lt j Hj). destruct (W_bounds j Hj) as [A B].
    destruct (Rle_dec (nesting m j) 0) as [N|N].
    - assert (0 <= - nesting m j * W j) by (apply Rmult_le_pos; lra). lra.
    - assert (nesting m j * W j <= nesting m j * 1) by (apply Rmult_le_compat_l; lra). lra.
  Qed.
  Let b (j : nat) : R := markup_factor m firm s j.
  Lemma markup_by_factor j : (j < J)%nat -> eta j = b j * (/ a + f_share j eta).
  Proof.
    intros Hj. pose proof (markup_step j Hj) as Q. rewrite (fn_common j Hj) in Q. pose proof (denominator_pos j Hj) as D. unfold b, markup_factor. fold (W j).
    set (F := f_share j eta) in *. apply Rmult_eq_reg_l with (1 - nesting m j * W j); [|lra].
    transitivity ((1 - nesting m j) * (/ a + F)); [lra|]. field. lra.
  Qed.
  Lemma markup_formula j : (j < J)%nat -> eta j = b j / (a * (1 - firm_total m firm (fun k => s k * b k) j)).
  Proof.
    intros Hj. set (B := firm_total m firm (fun k => s k * b k) j). set (F := f_share j eta).
    assert (Q : F = B * (/ a + F)).
    { unfold B, firm_total. fold J. rewrite <- sumn_scal_r. unfold F at 1, f_share. apply sumn_ext. intros k Hk.
      destruct (Z.eqb_spec (firm j) (firm k)) as [Ef|]; [|ring]. rewrite (markup_by_factor k Hk).
      assert (A : f_share k eta = F) by (unfold F, f_share; rewrite Ef; reflexivity). rewrite A. ring. }
    assert (N : 1 - B <> 0).
    { intros Z. assert (B1 : B = 1) by lra. rewrite B1 in Q. assert (0 < / a) by (apply Rinv_0_lt_compat; exact Ha). lra. }
    rewrite (markup_by_factor j Hj). fold F.
    assert (X : / a + F = / (a * (1 - B))).
    { apply Rmult_eq_reg_l with (1 - B); [|exact N]. transitivity (/ a); [rewrite Q at 1; replace ((1 - B) * (/ a + B * (/ a + F))) with (/ a + B * (F - B * (/ a + F))) by ring; rewrite <- Q; ring|]. field. split; lra. }
    rewrite X. reflexivity.
  Qed.
End Market.

Section Surplus.
  Variable M : full_market.
  Variable a : R.
  Hypothesis T : common_tastes M a.
  Let m := fm M.
  Let J := mJ m.
  Let V := ct_valid M a T.
  Variable x : nat -> R.

  Lemma outside_weights : outside_share m (shares_at M x) = / (1 + surplus_weights m all_goods (utility m (update_delta M x) (fun _ => 0))).
  Proof.
    unfold outside_share. fold J. rewrite (sumn_ext J (shares_at M x) (nested J (grpn m) (gidx m) (grhox m) all_goods true (utility m (update_delta M x) (fun _ => 0)))).
    - rewrite nested_total by (intros j Hj; apply gidx_lt; [exact V|exact Hj]). unfold surplus_weights. fold J.
      pose proof (weights_nonneg J (grpn m) (gidx m) (grhox m) all_goods (utility m (update_delta M x) (fun _ => 0))). cbn [indR]. field. lra.
    - intros j Hj. rewrite (shares_common M a T x j Hj), (prob0_nested M a T x j Hj). reflexivity.
  Qed.
  Lemma surplus_closed : eps_scale m = 1 -> 0 < a ->
    consumer_surplus M (fun _ => None) None x = - ln (outside_share m (shares_at M x)) / a.
  Proof.
    intros Ee Ha. rewrite outside_weights. rewrite ln_Rinv by (pose proof (surplus_weights_nonneg m all_goods (utility m (update_delta M x) (fun _ => 0))); lra).
    rewrite Ropp_involutive. unfold consumer_surplus.
    rewrite (sumn_ext (fI M) _ (fun i => ln (1 + surplus_weights m all_goods (utility m (update_delta M x) (fun _ => 0))) / a * fw M i)).
    - rewrite sumn_scal, (ct_weights M a T). ring.
    - intros i Hi. f_equal.
      pose proof (individual_surplus_exact M (fun _ => None) None x i a V Ee) as Q. cbn [option_map] in Q.
      rewrite Q by (intros y j Hj; apply (tastes_slope M a T); exact Hj). clear Q.
      cbv zeta. fold m. rewrite <- (surplus_expected_max m). rewrite included_all. f_equal. f_equal. f_equal.
      unfold surplus_weights. apply sumn_ext. intros h Hh. unfold group_weight. f_equal. destruct (existsb _ _); [|reflexivity]. f_equal.
      unfold inclusive. apply sumn_ext. intros k Hk. unfold utility. rewrite (mu_zero M a T). fold m. rewrite Ee. replace ((update_delta M x k + 0) / 1) with (update_delta M x k + 0) by field. reflexivity.
  Qed.
End Surplus.

(** Without nests, the second choice of those who buy a product is the product that marginal buyers of it switch to. *)
Section LongRun.
  Variable M : full_market.
  Variable a : R.
  Hypothesis T : common_tastes M a.
  Let m := fm M.
  Let J := mJ m.
  Let V := ct_valid M a T.
  Hypothesis HH : mH m = O.
  Let s := shares_at M (var0 M).
  Let U := utility m (delta0 M) (fun _ => 0).

  Lemma delta_at_observed j : update_delta M (var0 M) j = delta0 M j.
  Proof.
    unfold update_delta. rewrite (sumn_ext _ _ (fun _ => 0)); [rewrite sumn_zero; ring|]. intros k _. destruct (uses (fX1 M k)); ring.
  Qed.
  Lemma share_logit j : (j < J)%nat -> s j = exp (U j) / (1 + sumn J (fun k => exp (U k))).
  Proof.
    intros Hj. unfold s. rewrite (shares_common M a T (var0 M) j Hj). unfold prob0. fold m. rewrite full_choice_with.
    destruct (probabilities_spec m true true None None None (update_delta M (var0 M)) (fun _ => 0) V) as [A _]. destruct (A HH) as [A1 _].
    rewrite (A1 j Hj). rewrite included_all. unfold logit, all_goods. cbn [indR].
    assert (Eu : forall k, utility m (update_delta M (var0 M)) (fun _ => 0) k = U k) by (intros k; unfold U, utility; rewrite delta_at_observed; reflexivity).
    rewrite Eu. f_equal. f_equal. apply sumn_ext. intros k _. rewrite Eu. reflexivity.
  Qed.
  Lemma without_logit j k : (j < J)%nat -> (k < J)%nat -> k <> j ->
    shares_without m (agents_with M (compute_mu M (X2_0 M))) (delta0 M) j k = exp (U k) / (1 + (sumn J (fun k => exp (U k)) - exp (U j))).
  Proof.
    intros Hj Hk N. unfold shares_without. cbn [agents_with aI aw amu].
    rewrite (sumn_ext (fI M) _ (fun i => exp (U k) / (1 + (sumn J (fun k => exp (U k)) - exp (U j))) * fw M i)); [rewrite sumn_scal, (ct_weights M a T); ring|].
    intros i _. f_equal. change (mk_choice false None (Some j) None) with (choice_with true None (Some j) None).
    destruct (probabilities_spec m true true None (Some j) None (delta0 M) (compute_mu M (X2_0 M) i) V) as [A _]. destruct (A HH) as [A1 _].
    rewrite (A1 k Hk). unfold logit, included. cbn [indR].
    assert (Eu : forall l, utility m (delta0 M) (compute_mu M (X2_0 M) i) l = U l) by (intros l; unfold U, utility, compute_mu; rewrite (ct_random M a T); reflexivity).
    destruct (Nat.eqb_spec k j) as [|_]; [contradiction|]. cbn [negb andb]. rewrite Eu. f_equal. f_equal.
    rewrite (sumn_ext J _ (fun l => exp (U l) - (if Nat.eqb l j then exp (U l) else 0))).
    - rewrite sumn_minus, (sumn_delta J j (fun l => exp (U l)) Hj). reflexivity.
    - intros l _. rewrite Eu. destruct (Nat.eqb l j); cbn; ring.
  Qed.
  Lemma long_run_closed j k : (j < J)%nat -> (k < J)%nat ->
    long_run_diversion m (agents_with M (compute_mu M (X2_0 M))) (delta0 M) s j k
    = if Nat.eqb j k then outside_share m s / (1 - s j) else s k / (1 - s j).
  Proof.
    intros Hj Hk.
    assert (P : 0 < exp (U j)) by apply exp_pos. set (D := sumn J (fun k => exp (U k))).
    assert (Q : exp (U j) <= D).
    { unfold D. rewrite <- (sumn_delta J j (fun l => exp (U l)) Hj). apply sumn_le. intros l _. destruct (Nat.eqb l j); [lra|left; apply exp_pos]. }
    assert (Es : s j = exp (U j) / (1 + D)) by apply (share_logit j Hj).
    assert (Ne : 1 - s j <> 0).
    { rewrite Es. replace (1 - exp (U j) / (1 + D)) with ((1 + D - exp (U j)) / (1 + D)) by (field; lra). apply Rgt_not_eq. apply Rdiv_lt_0_compat; lra. }
    assert (Hs : s j <> 0) by (rewrite Es; apply Rgt_not_eq, Rdiv_lt_0_compat; lra).
    assert (Off : forall l, (l < J)%nat -> l <> j -> long_run_diversion m (agents_with M (compute_mu M (X2_0 M))) (delta0 M) s j l = s l / (1 - s j)).
    { intros l Hl N. unfold long_run_diversion. destruct (Nat.eqb_spec l j) as [|_]; [contradiction|]. rewrite (without_logit j l Hj Hl N).
      rewrite (share_logit l Hl), Es. fold D. field. lra. }
    destruct (Nat.eqb_spec j k) as [<-|N]; [|apply Off; [exact Hk|congruence]].
    pose proof (long_run_rows m (agents_with M (compute_mu M (X2_0 M))) (delta0 M) s j V Hj Hs) as Rw. fold J in Rw.
    rewrite (sumn_ext J _ (fun l => s l / (1 - s j) + (if Nat.eqb l j then long_run_diversion m (agents_with M (compute_mu M (X2_0 M))) (delta0 M) s j l - s l / (1 - s j) else 0))) in Rw.
    - rewrite sumn_plus, (sumn_delta J j (fun l => long_run_diversion m (agents_with M (compute_mu M (X2_0 M))) (delta0 M) s j l - s l / (1 - s j)) Hj) in Rw.
      unfold Rdiv in Rw. rewrite sumn_scal_r in Rw. unfold outside_share. fold J. 
      assert (X : long_run_diversion m (agents_with M (compute_mu M (X2_0 M))) (delta0 M) s j j = 1 - sumn J s * / (1 - s j) + s j * / (1 - s j)) by lra.
      rewrite X. field. exact Ne.
    - intros l Hl. destruct (Nat.eqb_spec l j) as [->|Nl]; [ring|]. rewrite (Off l Hl Nl). ring.
  Qed.
End LongRun.
