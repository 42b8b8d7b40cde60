(** Proofs about competition of firms that each sell in one nest. *)
From Coq Require Import Reals Lra Lia ZArith List Bool Arith.
From Verif Require Import Base DemandSpec DemandModel DemandProofs DemandShares DemandElim DemandDeriv SupplyModel SupplySpec SupplyProofs
  WelfareModel WelfareSpec WelfareProofs ConvProofs ClosedSpec ClosedProofs CompetSpec.
From Verif Require DerivImplicit.
Local Open Scope R_scope.

Lemma linear_function f c : (forall x, derivable_pt_lim f x c) -> forall x y, f y - f x = c * (y - x).
Proof.
  intros D x y. assert (L : forall u v, u < v -> f v - f u = c * (v - u)).
  { intros u v Huv. destruct (MVT_cor2 f (fun _ => c) u v Huv (fun z _ => D z)) as (z & E & _). exact E. }
  destruct (Rtotal_order x y) as [H|[->|H]]; [exact (L x y H)|ring|pose proof (L y x H); lra].
Qed.

Lemma Rpower_mono_neg b c r : 0 < b -> b <= c -> 0 <= r -> Rpower c (- r) <= Rpower b (- r).
Proof.
  intros B C R0. rewrite !Rpower_Ropp. apply Rinv_le_contravar; [apply Rpower_pos|]. apply Rle_Rpower_l; [exact R0|lra].
Qed.

Section Market.
  Variable M : full_market.
  Variable a : R.
  Hypothesis N : nested_demand M a.
  Let m := fm M.
  Let J := mJ m.
  Let T := nd_tastes M a N.
  Let V := ct_valid M a T.
  Let Ha := nd_positive M a N.
  Let g := gidx m.
  Let r := grhox m.

  Definition U (x : nat -> R) (j : nat) : R := utility m (update_delta M x) (fun _ => 0) j.
  Lemma delta_linear x y j : (j < J)%nat -> update_delta M y j - update_delta M x j = - (a * eps_scale m) * (y j - x j).
  Proof.
    intros Hj. set (f := fun z => sumn (fK1 M) (fun k => if uses (fX1 M k) then fbeta M k * ev (fX1 M k) j z else 0)).
    assert (D : forall z, derivable_pt_lim f z (- (a * eps_scale m))).
    { intros z. unfold m. rewrite <- (ct_slope M a T j z Hj). apply (dlim_sumn (fK1 M) (fun k z => if uses (fX1 M k) then fbeta M k * ev (fX1 M k) j z else 0)). intros k Hk. destruct (uses (fX1 M k)) eqn:E.
      - apply (derivable_pt_lim_scal (ev (fX1 M k) j) (fbeta M k) z). destruct (nd_columns M a N (fun _ => z)) as [C _]. apply (C k j); assumption.
      - apply derivable_pt_lim_const. }
    rewrite <- (linear_function f _ D). unfold update_delta, f.
    assert (E : forall w, sumn (fK1 M) (fun k => if uses (fX1 M k) then fbeta M k * (ev (fX1 M k) j w - ev (fX1 M k) j (var0 M j)) else 0)
       = sumn (fK1 M) (fun k => if uses (fX1 M k) then fbeta M k * ev (fX1 M k) j w else 0) - sumn (fK1 M) (fun k => if uses (fX1 M k) then fbeta M k * ev (fX1 M k) j (var0 M j) else 0)).
    { intros w. rewrite <- sumn_minus. apply sumn_ext. intros k _. destruct (uses (fX1 M k)); ring. }
    rewrite !E. ring.
  Qed.
  Lemma U_linear x y j : (j < J)%nat -> U y j = U x j - a * (y j - x j).
  Proof.
    intros Hj. pose proof (vm_eps _ V) as Pe. fold m in Pe. pose proof (delta_linear x y j Hj) as L. unfold U, utility.
    assert (E : update_delta M y j = update_delta M x j - a * eps_scale m * (y j - x j)) by lra. rewrite E. field. lra.
  Qed.

  (** Weights of products, of nests, and of the products of a firm. *)
  Definition wt (x : nat -> R) (k : nat) : R := exp (U x k / (1 - r (g k))).
  Definition nest_wt (x : nat -> R) (h : nat) : R := inclusive J g r all_goods (U x) h.
  Definition nest_pow (x : nat -> R) (h : nat) : R := group_weight J g r all_goods (U x) h.
  Definition total_pow (x : nat -> R) : R := sumn (grpn m) (nest_pow x).
  Definition firm_wt (firm : nat -> Z) (x : nat -> R) (j : nat) : R := sumn J (fun k => if Z.eqb (firm j) (firm k) then wt x k else 0).

  Lemma g_lt j : (j < J)%nat -> (g j < grpn m)%nat.
  Proof. intros Hj. apply gidx_lt; [exact V|exact Hj]. Qed.
  Lemma r_nesting j : r (g j) = nesting m j.
  Proof. unfold r, g, grhox, gidx, nesting. destruct (Nat.eqb (mH m) 0); reflexivity. Qed.
  Lemma r_lt h : (h < grpn m)%nat -> r h < 1.
  Proof. intros Hh. apply grhox_lt; [exact V|exact Hh]. Qed.
  Lemma in_own j : (j < J)%nat -> existsb (fun k => all_goods k && Nat.eqb (g k) (g j)) (seq 0 J) = true.
  Proof. intros Hj. apply existsb_intro with j; [exact Hj|]. unfold all_goods. rewrite Nat.eqb_refl. reflexivity. Qed.
  Lemma nest_wt_pos x j : (j < J)%nat -> 0 < nest_wt x (g j).
  Proof. intros Hj. apply inclusive_pos, in_own. exact Hj. Qed.
  Lemma nest_pow_own x j : (j < J)%nat -> nest_pow x (g j) = Rpower (nest_wt x (g j)) (1 - r (g j)).
  Proof. intros Hj. apply group_weight_inclusive, in_own. exact Hj. Qed.
  Lemma total_nonneg x : 0 <= total_pow x.
  Proof. apply weights_nonneg. Qed.
  Lemma firm_wt_pos firm x j : (j < J)%nat -> 0 < firm_wt firm x j.
  Proof.
    intros Hj. apply sumn_pos.
    - intros k _. destruct (Z.eqb (firm j) (firm k)); [left; apply exp_pos|lra].
    - exists j. split; [exact Hj|]. rewrite Z.eqb_refl. apply exp_pos.
  Qed.

  (** Shares in terms of weights. *)
  Lemma share_wt x k : (k < J)%nat -> shares_at M x k = wt x k / nest_wt x (g k) * (nest_pow x (g k) / (1 + total_pow x)).
  Proof. intros Hk. rewrite (shares_common M a T x k Hk), (prob0_nested M a T x k Hk). reflexivity. Qed.
  Lemma in_nest_wt x k : (k < J)%nat -> mH m <> O -> share_in_nest m (shares_at M x) k = wt x k / nest_wt x (g k).
  Proof.
    intros Hk HH. unfold m. rewrite (in_nest_s M a T x k Hk), <- (cond0_within M a T x k Hk HH).
    unfold cond0. rewrite cond_spec by (exact V || exact HH || exact Hk).
    unfold wt, nest_wt, r, g, gidx, grhox, within_group, all_goods. fold m. destruct (Nat.eqb_spec (mH m) 0) as [|_]; [contradiction|]. reflexivity.
  Qed.

  Variable firm : nat -> Z.
  Hypothesis F : one_nest m firm.
  Lemma firm_g j k : (j < J)%nat -> (k < J)%nat -> firm j = firm k -> g j = g k.
  Proof.
    intros Hj Hk E. unfold g, gidx. destruct (Nat.eqb_spec (mH m) 0) as [|HH]; [reflexivity|].
    destruct (F j k Hj Hk E) as [H0|H0]; [contradiction|exact H0].
  Qed.
  Definition W (x : nat -> R) (j : nat) : R := firm_wt firm x j / nest_wt x (g j).
  Definition Sh (x : nat -> R) (j : nat) : R := W x j * (nest_pow x (g j) / (1 + total_pow x)).
  Lemma firm_share x j : (j < J)%nat -> firm_total m firm (shares_at M x) j = Sh x j.
  Proof.
    intros Hj. unfold firm_total, Sh, W, firm_wt. fold J. unfold Rdiv. rewrite Rmult_assoc, <- sumn_scal_r. apply sumn_ext. intros k Hk.
    destruct (Z.eqb_spec (firm j) (firm k)) as [E|]; [|ring]. rewrite (share_wt x k Hk), <- (firm_g j k Hj Hk E). unfold Rdiv. ring.
  Qed.
  Lemma firm_nest x j : (j < J)%nat -> nesting m j * firm_in_nest m firm (shares_at M x) j = nesting m j * W x j.
  Proof.
    intros Hj. destruct (Nat.eq_dec (mH m) 0) as [HH|HH]; [unfold nesting; rewrite HH; cbn [Nat.eqb]; ring|]. f_equal.
    unfold firm_in_nest, W, firm_wt. fold J. unfold Rdiv. rewrite <- sumn_scal_r. apply sumn_ext. intros k Hk.
    destruct (Z.eqb_spec (firm j) (firm k)) as [E|]; cbn [andb]; [|ring].
    assert (G : together m j k = true).
    { unfold together. destruct (Nat.eqb_spec (mH m) 0) as [|_]; [contradiction|]. cbn [negb andb]. apply Nat.eqb_eq. destruct (F j k Hj Hk E) as [H0|H0]; [contradiction|exact H0]. }
    rewrite G, (in_nest_wt x k Hk HH), (firm_g j k Hj Hk E). reflexivity.
  Qed.

  (** The markup of a firm. *)
  Definition mk (x : nat -> R) (j : nat) : R := (1 - r (g j)) / (a * (1 - r (g j) * W x j - (1 - r (g j)) * Sh x j)).
  Lemma W_le x j : (j < J)%nat -> 0 < W x j <= 1.
  Proof.
    intros Hj. pose proof (nest_wt_pos x j Hj) as P. split; [apply Rdiv_lt_0_compat; [apply firm_wt_pos; exact Hj|exact P]|].
    unfold W. apply Rmult_le_reg_r with (nest_wt x (g j)); [exact P|]. unfold Rdiv. rewrite Rmult_assoc, Rinv_l, Rmult_1_r, Rmult_1_l by lra.
    unfold firm_wt, nest_wt, inclusive. apply sumn_le. intros k Hk. destruct (Z.eqb_spec (firm j) (firm k)) as [E|].
    - rewrite (firm_g j k Hj Hk E). unfold all_goods. rewrite Nat.eqb_refl. cbn [andb]. right. reflexivity.
    - destruct (all_goods k && Nat.eqb (g k) (g j))%bool; [left; apply exp_pos|lra].
  Qed.
  Lemma pow_le x h : (h < grpn m)%nat -> nest_pow x h <= total_pow x.
  Proof.
    intros Hh. unfold total_pow. rewrite <- (sumn_delta (grpn m) h (nest_pow x) Hh). apply sumn_le. intros k _.
    pose proof (group_weight_nonneg J g r all_goods (U x) k) as P. fold (nest_pow x k) in P. destruct (Nat.eqb k h); lra.
  Qed.
  Lemma Sh_lt x j : (j < J)%nat -> 0 < Sh x j < 1.
  Proof.
    intros Hj. destruct (W_le x j Hj) as [A B]. pose proof (pow_le x (g j) (g_lt j Hj)) as C. pose proof (total_nonneg x) as D.
    assert (P : 0 < nest_pow x (g j)) by (rewrite nest_pow_own by exact Hj; apply Rpower_pos).
    set (G := nest_pow x (g j)) in *. set (t := total_pow x) in *. assert (Q : 0 < G / (1 + t)) by (apply Rdiv_lt_0_compat; lra).
    assert (Q1 : G / (1 + t) < 1).
    { apply Rmult_lt_reg_r with (1 + t); [lra|]. unfold Rdiv. rewrite Rmult_assoc, Rinv_l by lra. lra. }
    unfold Sh. fold G t. split; [apply Rmult_lt_0_compat; lra|].
    assert (W x j * (G / (1 + t)) <= 1 * (G / (1 + t))) by (apply Rmult_le_compat_r; lra). lra.
  Qed.
  Lemma r_bounds j : (j < J)%nat -> 0 <= r (g j) < 1.
  Proof. intros Hj. split; [rewrite r_nesting; apply (nd_nesting M a N j Hj)|apply r_lt, g_lt; exact Hj]. Qed.
  Lemma mk_denominator x j : (j < J)%nat -> 0 < 1 - r (g j) * W x j - (1 - r (g j)) * Sh x j.
  Proof.
    intros Hj. destruct (W_le x j Hj) as [A B]. destruct (Sh_lt x j Hj) as [C D]. destruct (r_bounds j Hj) as [R0 R1].
    assert (r (g j) * W x j <= r (g j) * 1) by (apply Rmult_le_compat_l; lra).
    assert ((1 - r (g j)) * Sh x j < (1 - r (g j)) * 1) by (apply Rmult_lt_compat_l; lra). lra.
  Qed.
  Lemma factor_common x j k : (j < J)%nat -> (k < J)%nat -> firm j = firm k -> markup_factor m firm (shares_at M x) k = markup_factor m firm (shares_at M x) j.
  Proof.
    intros Hj Hk E. unfold markup_factor. rewrite (firm_nest x j Hj), (firm_nest x k Hk). rewrite <- !r_nesting.
    pose proof (firm_g j k Hj Hk E) as G. rewrite <- G. unfold W. rewrite <- G. unfold firm_wt. rewrite E. reflexivity.
  Qed.
  Lemma equilibrium_markup costs p j : bertrand J (owned firm) costs (shares_at M) p -> (j < J)%nat -> p j - costs j = mk p j.
  Proof.
    intros Q Hj. assert (E : markup_equation (mJ (fm M)) (owned firm) (shares_jacobian M p) (shares_at M p) (fun j => p j - costs j)).
    { apply bertrand_iff_markup; [apply (ct_valid M a T)|apply (nd_columns M a N)|intros k _; unfold owned; rewrite Z.eqb_refl; reflexivity|exact Q]. }
    pose proof (markup_formula M a T p firm (fun j => p j - costs j) Ha E j Hj) as X. cbv beta zeta in X. rewrite X. fold m. clear X.
    set (b := markup_factor m firm (shares_at M p)).
    assert (B : firm_total m firm (fun k => shares_at M p k * b k) j = Sh p j * b j).
    { rewrite <- (firm_share p j Hj). unfold firm_total. rewrite <- sumn_scal_r. apply sumn_ext. intros k Hk.
      destruct (Z.eqb_spec (firm j) (firm k)) as [Ef|]; [|ring]. unfold b. rewrite (factor_common p j k Hj Hk Ef). reflexivity. }
    rewrite B. unfold b, markup_factor. rewrite (firm_nest p j Hj). rewrite <- r_nesting. unfold mk.
    pose proof (mk_denominator p j Hj) as D. destruct (r_bounds j Hj) as [R0 R1]. destruct (W_le p j Hj) as [W0 W1].
    assert (r (g j) * W p j <= r (g j) * 1) by (apply Rmult_le_compat_l; lra). field. repeat split; lra.
  Qed.
  Lemma mk_firm x j k : (j < J)%nat -> (k < J)%nat -> firm j = firm k -> mk x j = mk x k.
  Proof. intros Hj Hk E. unfold mk, Sh, W. rewrite (firm_g j k Hj Hk E). unfold firm_wt. rewrite E. reflexivity. Qed.
  (** What firms gain from higher prices, whatever the markups. *)
  Lemma residual x eta j : (j < J)%nat ->
    shares_at M x j + sumn J (fun k => owned firm j k * shares_jacobian M x k j * eta k) =
    shares_at M x j * (1 + a * sumn J (fun k => if Z.eqb (firm j) (firm k) then shares_at M x k * eta k else 0)
      + a * (nesting m j / (1 - nesting m j)) * sumn J (fun k => if (Z.eqb (firm j) (firm k) && together m j k)%bool then share_in_nest m (shares_at M x) k * eta k else 0)
      - a / (1 - nesting m j) * eta j).
  Proof.
    intros Hj. assert (L := nesting_lt M a T j Hj). fold m in L. set (s := shares_at M x). set (q := nesting m j) in *.
    rewrite (sumn_ext J (fun k => owned firm j k * shares_jacobian M x k j * eta k) (fun k => a * s j * (if Z.eqb (firm j) (firm k) then s k * eta k else 0)
       + a * s j * (q / (1 - q)) * (if (Z.eqb (firm j) (firm k) && together m j k)%bool then share_in_nest m s k * eta k else 0)
       + (if Nat.eqb k j then - (a / (1 - q)) * s k * eta k else 0))).
    - rewrite !sumn_plus, !sumn_scal, (sumn_delta J j (fun k => - (a / (1 - q)) * s k * eta k) Hj). ring.
    - intros k Hk. unfold owned. destruct (Z.eqb_spec (firm j) (firm k)) as [Ef|Nf]; cbn [andb].
      + rewrite (jacobian_closed M a T x k j Hk Hj). fold m s. unfold share_slope. destruct (Nat.eqb_spec k j) as [->|Nk].
        * fold q. unfold together. rewrite Nat.eqb_refl. destruct (Nat.eqb_spec (mH m) 0) as [HH|HH]; cbn [negb andb].
          -- assert (Q0 : q = 0) by (unfold q, nesting; rewrite HH; reflexivity). rewrite Q0. field.
          -- field. lra.
        * assert (K : together m k j = together m j k) by (unfold together; rewrite (Nat.eqb_sym (gid m j)); reflexivity). rewrite K.
          destruct (together m j k) eqn:K'; [|ring]. assert (K1 : nesting m k = q).
          { unfold together in K'. apply andb_prop in K'. destruct K' as [_ K']. apply Nat.eqb_eq in K'. unfold q, nesting. rewrite K'. reflexivity. }
          rewrite K1. field. lra.
      + destruct (Nat.eqb_spec k j) as [->|Nk]; [contradiction|]. ring.
  Qed.
  Lemma markups_suffice costs p : (forall j, (j < J)%nat -> p j - costs j = mk p j) -> bertrand J (owned firm) costs (shares_at M) p.
  Proof.
    intros E. apply bertrand_iff_markup; [exact V|apply (nd_columns M a N)|intros k _; unfold owned; rewrite Z.eqb_refl; reflexivity|].
    intros j Hj. change (mJ (fm M)) with J in *. rewrite (residual p (fun k => p k - costs k) j Hj).
    rewrite (sumn_ext J (fun k => if Z.eqb (firm j) (firm k) then shares_at M p k * (p k - costs k) else 0) (fun k => (if Z.eqb (firm j) (firm k) then shares_at M p k else 0) * mk p j)).
    2: { intros k Hk. destruct (Z.eqb_spec (firm j) (firm k)) as [Ef|]; [|ring]. rewrite (E k Hk), <- (mk_firm p j k Hj Hk Ef). reflexivity. }
    rewrite (sumn_ext J (fun k => if (Z.eqb (firm j) (firm k) && together m j k)%bool then share_in_nest m (shares_at M p) k * (p k - costs k) else 0)
      (fun k => (if (Z.eqb (firm j) (firm k) && together m j k)%bool then share_in_nest m (shares_at M p) k else 0) * mk p j)).
    2: { intros k Hk. destruct (Z.eqb_spec (firm j) (firm k)) as [Ef|]; cbn [andb]; [|ring]. destruct (together m j k); [|ring]. rewrite (E k Hk), <- (mk_firm p j k Hj Hk Ef). reflexivity. }
    rewrite !sumn_scal_r, (E j Hj).
    change (sumn J (fun k => if Z.eqb (firm j) (firm k) then shares_at M p k else 0)) with (firm_total m firm (shares_at M p) j).
    change (sumn J (fun k => if (Z.eqb (firm j) (firm k) && together m j k)%bool then share_in_nest m (shares_at M p) k else 0)) with (firm_in_nest m firm (shares_at M p) j).
    rewrite (firm_share p j Hj). pose proof (firm_nest p j Hj) as FN. set (w := firm_in_nest m firm (shares_at M p) j) in *. rewrite <- r_nesting in *.
    pose proof (mk_denominator p j Hj) as D. destruct (r_bounds j Hj) as [R0 R1]. set (q := r (g j)) in *.
    replace (a * (q / (1 - q)) * (w * mk p j)) with (a / (1 - q) * mk p j * (q * w)) by (field; lra). rewrite FN. unfold mk. fold q. field. repeat split; lra.
  Qed.

  (** Markups increase with both shares. *)
  Lemma mk_compare x y j : (j < J)%nat -> W x j <= W y j -> Sh x j <= Sh y j -> mk x j <= mk y j /\ (Sh x j < Sh y j -> mk x j < mk y j).
  Proof.
    intros Hj A B. pose proof (mk_denominator x j Hj) as Dx. pose proof (mk_denominator y j Hj) as Dy. destruct (r_bounds j Hj) as [R0 R1].
    assert (C : r (g j) * W x j <= r (g j) * W y j) by (apply Rmult_le_compat_l; lra).
    assert (D : (1 - r (g j)) * Sh x j <= (1 - r (g j)) * Sh y j) by (apply Rmult_le_compat_l; lra).
    unfold mk, Rdiv. split.
    - apply Rmult_le_compat_l; [lra|]. apply Rinv_le_contravar; [apply Rmult_lt_0_compat; lra|]. apply Rmult_le_compat_l; lra.
    - intros L. assert (D' : (1 - r (g j)) * Sh x j < (1 - r (g j)) * Sh y j) by (apply Rmult_lt_compat_l; lra).
      apply Rmult_lt_compat_l; [lra|]. apply Rinv_lt_contravar; [|apply Rmult_lt_compat_l; lra]. repeat apply Rmult_lt_0_compat; lra.
  Qed.

  (** Higher prices of others raise the markup. *)
  Lemma nest_wt_le x y h : (h < grpn m)%nat -> (forall k, (k < J)%nat -> x k <= y k) -> nest_wt y h <= nest_wt x h.
  Proof.
    intros Hh L. unfold nest_wt, inclusive. apply sumn_le. intros k Hk. destruct (all_goods k && Nat.eqb (g k) h)%bool; [|lra].
    apply DemandShares.exp_le. unfold Rdiv. apply Rmult_le_compat_r; [left; apply Rinv_0_lt_compat; pose proof (r_lt h Hh); lra|].
    rewrite (U_linear x y k Hk). pose proof (L k Hk). assert (0 <= a * (y k - x k)) by (apply Rmult_le_pos; lra). lra.
  Qed.
  Lemma nest_pow_le x y h : (h < grpn m)%nat -> (forall k, (k < J)%nat -> x k <= y k) -> nest_pow y h <= nest_pow x h.
  Proof.
    intros Hh L. unfold nest_pow, group_weight. destruct (existsb _ _) eqn:Ex; [|lra].
    apply Rle_Rpower_l; [pose proof (r_lt h Hh); lra|]. split; [apply inclusive_pos; exact Ex|apply (nest_wt_le x y h Hh L)].
  Qed.
  Lemma total_le x y : (forall k, (k < J)%nat -> x k <= y k) -> total_pow y <= total_pow x.
  Proof. intros L. apply sumn_le. intros h Hh. apply nest_pow_le; assumption. Qed.
  Lemma Sh_power x j : (j < J)%nat -> Sh x j = firm_wt firm x j * Rpower (nest_wt x (g j)) (- r (g j)) * / (1 + total_pow x).
  Proof.
    intros Hj. unfold Sh, W. rewrite (nest_pow_own x j Hj). pose proof (nest_wt_pos x j Hj) as P.
    replace (1 - r (g j)) with (1 + - r (g j)) by ring. rewrite Rpower_plus, Rpower_1 by exact P. pose proof (total_nonneg x). field. split; lra.
  Qed.
  Lemma others_dearer x y j : (j < J)%nat -> (forall k, (k < J)%nat -> x k <= y k) -> (forall k, (k < J)%nat -> firm j = firm k -> x k = y k) -> mk x j <= mk y j.
  Proof.
    intros Hj L E. assert (A : firm_wt firm x j = firm_wt firm y j).
    { apply sumn_ext. intros k Hk. destruct (Z.eqb_spec (firm j) (firm k)) as [Ef|]; [|reflexivity]. unfold wt. rewrite (U_linear x y k Hk), (E k Hk Ef). f_equal. f_equal. ring. }
    pose proof (nest_wt_pos y j Hj) as Py. pose proof (nest_wt_le x y (g j) (g_lt j Hj) L) as D. pose proof (firm_wt_pos firm y j Hj) as Pf.
    apply mk_compare; [exact Hj| |].
    - unfold W. rewrite A. unfold Rdiv. apply Rmult_le_compat_l; [lra|]. apply Rinv_le_contravar; assumption.
    - rewrite (Sh_power x j Hj), (Sh_power y j Hj), A.
      pose proof (Rpower_mono_neg _ _ (r (g j)) Py D (proj1 (r_bounds j Hj))) as Q. pose proof (total_le x y L) as Tl. pose proof (total_nonneg y) as Ty.
      apply Rmult_le_compat; [apply Rmult_le_pos; [lra|left; apply Rpower_pos]|left; apply Rinv_0_lt_compat; lra|apply Rmult_le_compat_l; [lra|exact Q]|apply Rinv_le_contravar; lra].
  Qed.

  (** Raising all prices by the same amount lowers markups. *)
  Section Shift.
    Variable x : nat -> R.
    Variable t : R.
    Hypothesis Ht : 0 < t.
    Let y := fun k => x k + t.
    Lemma U_shift k : (k < J)%nat -> U y k = U x k - a * t.
    Proof. intros Hk. rewrite (U_linear x y k Hk). unfold y. ring. Qed.
    Lemma wt_shift k : (k < J)%nat -> wt y k = exp (- (a * t) / (1 - r (g k))) * wt x k.
    Proof. intros Hk. unfold wt. rewrite (U_shift k Hk), <- exp_plus. f_equal. pose proof (r_lt (g k) (g_lt k Hk)). field. lra. Qed.
    Lemma W_shift j : (j < J)%nat -> W y j = W x j.
    Proof.
      intros Hj. unfold W. set (c := exp (- (a * t) / (1 - r (g j)))). assert (Pc : 0 < c) by apply exp_pos.
      assert (A : firm_wt firm y j = c * firm_wt firm x j).
      { unfold firm_wt. rewrite <- sumn_scal. apply sumn_ext. intros k Hk. destruct (Z.eqb_spec (firm j) (firm k)) as [E|]; [|ring].
        rewrite (wt_shift k Hk), <- (firm_g j k Hj Hk E). reflexivity. }
      assert (B : nest_wt y (g j) = c * nest_wt x (g j)).
      { unfold nest_wt, inclusive. rewrite <- sumn_scal. apply sumn_ext. intros k Hk. unfold all_goods. cbn [andb]. destruct (Nat.eqb_spec (g k) (g j)) as [E|]; [|ring].
        rewrite <- E. change (wt y k = c * wt x k). rewrite (wt_shift k Hk), E. reflexivity. }
      rewrite A, B. pose proof (nest_wt_pos x j Hj). field. split; lra.
    Qed.
    Lemma pow_shift h : (h < grpn m)%nat -> nest_pow y h = exp (- (a * t)) * nest_pow x h.
    Proof.
      intros Hh. unfold nest_pow. rewrite <- (group_weight_shift J g r (U x) (a * t) h (r_lt h Hh)). unfold group_weight. destruct (existsb _ _); [|reflexivity].
      f_equal. unfold inclusive. apply sumn_ext. intros k Hk. rewrite (U_shift k Hk). reflexivity.
    Qed.
    Lemma total_shift : total_pow y = exp (- (a * t)) * total_pow x.
    Proof. unfold total_pow. rewrite <- sumn_scal. apply sumn_ext. intros h Hh. apply pow_shift. exact Hh. Qed.
    Lemma all_dearer j : (j < J)%nat -> mk y j < mk x j.
    Proof.
      intros Hj. assert (Q : Sh y j < Sh x j).
      { unfold Sh. rewrite (W_shift j Hj), (pow_shift (g j) (g_lt j Hj)), total_shift. destruct (W_le x j Hj) as [W0 _]. apply Rmult_lt_compat_l; [exact W0|].
        assert (P : 0 < nest_pow x (g j)) by (rewrite nest_pow_own by exact Hj; apply Rpower_pos). pose proof (total_nonneg x) as Tx.
        set (G := nest_pow x (g j)) in *. set (s := total_pow x) in *. set (l := exp (- (a * t))).
        assert (L0 : 0 < l) by apply exp_pos. assert (L1 : l < 1). { unfold l. rewrite <- exp_0. apply exp_increasing. pose proof (Rmult_lt_0_compat a t Ha Ht). lra. }
        assert (LS : 0 <= l * s) by (apply Rmult_le_pos; lra).
        apply Rmult_lt_reg_r with ((1 + l * s) * (1 + s)); [apply Rmult_lt_0_compat; lra|].
        replace (l * G / (1 + l * s) * ((1 + l * s) * (1 + s))) with (l * G + G * (l * s)) by (field; lra).
        replace (G / (1 + s) * ((1 + l * s) * (1 + s))) with (G + G * (l * s)) by (field; lra).
        assert (l * G < 1 * G) by (apply Rmult_lt_compat_r; lra). lra. }
      apply mk_compare; [exact Hj|right; apply W_shift; exact Hj|left; exact Q|exact Q].
    Qed.
  End Shift.
End Market.

(** Larger firms have larger markups, and the comparison of equilibria. *)
Section Compare.
  Variable M : full_market.
  Variable a : R.
  Hypothesis N : nested_demand M a.
  Let m := fm M.
  Let J := mJ m.
  Variables before after : nat -> Z.
  Hypothesis F : one_nest m after.
  Hypothesis R0 : merges J before after.
  Lemma before_one : one_nest m before.
  Proof. intros j k Hj Hk E. apply F; [exact Hj|exact Hk|]. apply R0; assumption. Qed.
  Let F0 := before_one.

  Lemma larger_firm x j : (j < J)%nat -> mk M a before x j <= mk M a after x j /\ (acquires J before after j -> mk M a before x j < mk M a after x j).
  Proof.
    intros Hj. assert (A : firm_wt M before x j <= firm_wt M after x j).
    { apply sumn_le. intros k Hk. pose proof (exp_pos (U M x k / (1 - grhox m (gidx m k)))) as P. unfold wt. fold m.
      destruct (Z.eqb_spec (before j) (before k)) as [E|]; [|destruct (Z.eqb (after j) (after k)); lra].
      rewrite (proj2 (Z.eqb_eq _ _) (R0 j k Hj Hk E)). lra. }
    assert (B : acquires J before after j -> firm_wt M before x j < firm_wt M after x j).
    { intros (k & Hk & N1 & E1). assert (P := exp_pos (U M x k / (1 - grhox m (gidx m k)))).
      apply Rlt_le_trans with (firm_wt M before x j + wt M x k); [unfold wt; fold m; lra|].
      unfold firm_wt. fold m J. rewrite <- (sumn_delta J k (wt M x) Hk), <- sumn_plus. apply sumn_le. intros l Hl.
      assert (Pl : 0 < wt M x l) by apply exp_pos.
      destruct (Nat.eqb_spec l k) as [->|].
      - destruct (Z.eqb_spec (before j) (before k)) as [|_]; [contradiction|]. rewrite (proj2 (Z.eqb_eq _ _) E1). lra.
      - destruct (Z.eqb_spec (before j) (before l)) as [E|]; [rewrite (proj2 (Z.eqb_eq _ _) (R0 j l Hj Hl E)); lra|]. destruct (Z.eqb (after j) (after l)); lra. }
    pose proof (nest_wt_pos M x j Hj) as P. pose proof (total_nonneg M x) as Tx.
    assert (P2 : 0 < nest_pow M x (gidx m j)) by (unfold m; rewrite (nest_pow_own M x j Hj); apply Rpower_pos).
    assert (Q : 0 < nest_pow M x (gidx m j) / (1 + total_pow M x)) by (apply Rdiv_lt_0_compat; lra).
    assert (WA : W M before x j <= W M after x j).
    { unfold W, Rdiv. apply Rmult_le_compat_r; [left; apply Rinv_0_lt_compat; exact P|exact A]. }
    destruct (r_bounds M a N j Hj) as [r0 r1]. pose proof (mk_denominator M a N before F0 x j Hj) as D1. pose proof (mk_denominator M a N after F x j Hj) as D2.
    unfold mk, Sh in *. fold m in D1, D2, r0, r1 |- *. set (q := nest_pow M x (gidx m j) / (1 + total_pow M x)) in *. set (rr := grhox m (gidx m j)) in *.
    assert (X : rr * W M before x j <= rr * W M after x j) by (apply Rmult_le_compat_l; lra).
    assert (Y : (1 - rr) * (W M before x j * q) <= (1 - rr) * (W M after x j * q)) by (apply Rmult_le_compat_l; [lra|apply Rmult_le_compat_r; lra]).
    pose proof (nd_positive M a N) as Pa. unfold Rdiv. split.
    - apply Rmult_le_compat_l; [lra|]. apply Rinv_le_contravar; [apply Rmult_lt_0_compat; lra|]. apply Rmult_le_compat_l; lra.
    - intros Ac. assert (WB : W M before x j < W M after x j).
      { unfold W, Rdiv. apply Rmult_lt_compat_r; [apply Rinv_0_lt_compat; exact P|exact (B Ac)]. }
      assert (Y' : (1 - rr) * (W M before x j * q) < (1 - rr) * (W M after x j * q)) by (apply Rmult_lt_compat_l; [lra|apply Rmult_lt_compat_r; lra]).
      apply Rmult_lt_compat_l; [lra|]. apply Rinv_lt_contravar; [|apply Rmult_lt_compat_l; lra]. repeat apply Rmult_lt_0_compat; lra.
  Qed.

  Variables c c' p p' : nat -> R.
  Hypothesis B : bertrand J (owned before) c (shares_at M) p.
  Hypothesis B' : bertrand J (owned after) c' (shares_at M) p'.
  Hypothesis S0 : same_change J before c c'.

  (** At a product whose price falls most. *)
  Lemma at_largest_fall j : (j < J)%nat -> (forall k, (k < J)%nat -> p k - p' k <= p j - p' j) -> 0 <= p j - p' j ->
    p j - p' j <= c j - c' j /\ (0 < p j - p' j \/ acquires J before after j -> p j - p' j < c j - c' j).
  Proof.
    intros Hj L0 Pos. set (t := p j - p' j) in *.
    pose proof (equilibrium_markup M a N before F0 c p j B Hj) as E1. pose proof (equilibrium_markup M a N after F c' p' j B' Hj) as E2.
    assert (K : mk M a before p j <= mk M a before (fun k => p' k + t) j).
    { apply (others_dearer M a N before F0 p (fun k => p' k + t) j Hj).
      - intros k Hk. pose proof (L0 k Hk). lra.
      - intros k Hk Ef. pose proof (equilibrium_markup M a N before F0 c p k B Hk) as G1. pose proof (equilibrium_markup M a N after F c' p' k B' Hk) as G2.
        pose proof (mk_firm M a before F0 p j k Hj Hk Ef) as G3. pose proof (mk_firm M a after F p' j k Hj Hk (R0 j k Hj Hk Ef)) as G4.
        pose proof (S0 j k Hj Hk Ef). unfold t. lra. }
    destruct (larger_firm p' j Hj) as [K2 K3].
    destruct Pos as [Pos|Pos].
    - pose proof (all_dearer M a N before F0 p' t Pos j Hj) as K4. split; [unfold t in *; lra|]. intros _. unfold t in *; lra.
    - assert (Z : mk M a before (fun k => p' k + t) j = mk M a before p' j).
      { apply Rle_antisym; apply (others_dearer M a N before F0); try exact Hj; intros k Hk; rewrite <- Pos; try intros _; lra. }
      split; [unfold t in *; lra|]. intros [X|X]; [lra|]. pose proof (K3 X). unfold t in *; lra.
  Qed.
  Lemma falls_bounded d : 0 <= d -> (forall k, (k < J)%nat -> c k - c' k <= d) -> forall j, (j < J)%nat -> p j - p' j <= d.
  Proof.
    intros Hd L j Hj. destruct (DerivImplicit.argmax J (fun k => p k - p' k) ltac:(lia)) as (l & Hl & Mx).
    apply Rle_trans with (p l - p' l); [apply Mx; exact Hj|]. destruct (Rle_dec (p l - p' l) d) as [Le|Gt]; [exact Le|]. exfalso.
    destruct (at_largest_fall l Hl Mx ltac:(lra)) as [X _]. pose proof (L l Hl). lra.
  Qed.
End Compare.
