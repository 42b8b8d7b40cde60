(** Outputs in other units. *)
From Coq Require Import Reals Lra Lia List Bool Arith FunctionalExtensionality.
From Verif Require Import Base FltModel IterModel DemandModel SupplyModel SupplyProofs DerivModel ConvModel EquilModel WelfareModel EndoSpec UnitsSpec.
Import ListNotations.
Local Open Scope R_scope.

Section Currency.
  Variables (c : R) (M M' : full_market).
  Hypothesis Hc : 0 < c.
  Hypothesis H : other_currency c M M'.
  Let scaled (x : nat -> R) := fun k : nat => c * x k.

  Lemma delta_same x : update_delta M' (scaled x) = update_delta M x.
  Proof. apply functional_extensionality. intros j. destruct H as (_ & _ & _ & _ & D & _). apply D. Qed.
  Lemma mu_same x : update_mu M' (scaled x) = update_mu M x.
  Proof.
    apply functional_extensionality. intros i. apply functional_extensionality. intros j.
    destruct H as (_ & _ & _ & _ & _ & D & _). apply D.
  Qed.
  Lemma derivatives_scaled x i j : utility_derivatives M' false (scaled x) i j = utility_derivatives M false x i j / c.
  Proof. destruct H as (_ & _ & _ & _ & _ & _ & D). apply D. Qed.
  Lemma var0_scaled : var0 M' = scaled (var0 M).
  Proof. apply functional_extensionality. intros j. apply H. Qed.

  Lemma shares_same x j : shares_at M' (scaled x) j = shares_at M x j.
  Proof.
    unfold shares_at. rewrite delta_same, mu_same. destruct H as (-> & -> & -> & _). reflexivity.
  Qed.
  Lemma lamda_scaled x j : lamda_at M' (scaled x) j = lamda_at M x j / c.
  Proof.
    unfold lamda_at. rewrite delta_same, mu_same. assert (D := derivatives_scaled). destruct H as (E1 & E2 & E3 & _).
    rewrite E1, E2, E3. unfold capital_lamda.
    assert (E : sumn (fI M) (fun i => probs (fm M) (update_delta M x) (update_mu M x) i j * utility_derivatives M' false (scaled x) i j * fw M i)
      = sumn (fI M) (fun i => probs (fm M) (update_delta M x) (update_mu M x) i j * utility_derivatives M false x i j * fw M i) / c).
    { unfold Rdiv. rewrite <- sumn_scal_r. apply sumn_ext. intros i _. rewrite D. unfold Rdiv. ring. }
    rewrite E. destruct (Nat.eqb (mH (fm M)) 0); unfold Rdiv; ring.
  Qed.
  Lemma gamma_scaled x j k : gamma_at M' (scaled x) j k = gamma_at M x j k / c.
  Proof.
    unfold gamma_at. rewrite delta_same, mu_same. assert (D := derivatives_scaled). destruct H as (E1 & E2 & E3 & _).
    rewrite E1, E2, E3. unfold capital_gamma.
    assert (E : forall Q : nat -> nat -> R,
      sumn (fI M) (fun i => Q i j * (fw M i * (probs (fm M) (update_delta M x) (update_mu M x) i k * utility_derivatives M' false (scaled x) i k)))
      = sumn (fI M) (fun i => Q i j * (fw M i * (probs (fm M) (update_delta M x) (update_mu M x) i k * utility_derivatives M false x i k))) / c).
    { intros Q. unfold Rdiv. rewrite <- sumn_scal_r. apply sumn_ext. intros i _. rewrite D. unfold Rdiv. ring. }
    rewrite !E. destruct (Nat.eqb (mH (fm M)) 0); unfold Rdiv; ring.
  Qed.
  Lemma jacobian_scaled x j k : shares_jacobian M' (scaled x) j k = shares_jacobian M x j k / c.
  Proof.
    change ((if Nat.eqb j k then lamda_at M' (scaled x) j else 0) - gamma_at M' (scaled x) j k
      = ((if Nat.eqb j k then lamda_at M x j else 0) - gamma_at M x j k) / c).
    rewrite lamda_scaled, gamma_scaled. destruct (Nat.eqb j k); unfold Rdiv; ring.
  Qed.
  Lemma elasticities_same observed j k : elasticities M' observed j k = elasticities M observed j k.
  Proof.
    unfold elasticities. rewrite var0_scaled, jacobian_scaled. unfold scaled, Rdiv.
    replace (shares_jacobian M (var0 M) j k * / c * (c * var0 M k)) with (shares_jacobian M (var0 M) j k * var0 M k) by (field; lra).
    reflexivity.
  Qed.
  Lemma diversion_same J x j k : shares_jacobian M x j j <> 0 ->
    diversion_ratios J (shares_jacobian M' (scaled x)) j k = diversion_ratios J (shares_jacobian M x) j k.
  Proof.
    intros N. unfold diversion_ratios. rewrite !jacobian_scaled.
    rewrite (sumn_ext J (shares_jacobian M' (scaled x) j) (fun l => shares_jacobian M x j l * / c)) by (intros; apply jacobian_scaled).
    rewrite sumn_scal_r. destruct (Nat.eqb j k); field; split; (exact N || lra).
  Qed.
  Lemma aggregate_same observed factor : aggregate_elasticity M' observed factor = aggregate_elasticity M observed factor.
  Proof.
    unfold aggregate_elasticity. assert (E : fm M' = fm M) by apply H. rewrite E. f_equal. apply sumn_ext. intros j _. f_equal.
    replace (fun k => (1 + factor) * var0 M' k) with (scaled (fun k => (1 + factor) * var0 M k)); [apply shares_same|].
    apply functional_extensionality. intros k. unfold scaled. rewrite var0_scaled. unfold scaled. ring.
  Qed.

  Lemma capital_delta_scaled O x j k : capital_delta M' O (scaled x) j k = capital_delta M O x j k / c.
  Proof. unfold capital_delta. rewrite lamda_scaled, gamma_scaled. destruct (Nat.eqb k j); unfold Rdiv; ring. Qed.

  Lemma eta_scaled solve solve' O observed : let J := mJ (fm M) in
    nonsingular J (capital_delta M O (var0 M)) -> exact_solver J solve -> exact_solver J solve' ->
    snd (compute_eta solve M O observed) = false -> snd (compute_eta solve' M' O observed) = false ->
    forall j, (j < J)%nat -> fst (compute_eta solve' M' O observed) j = c * fst (compute_eta solve M O observed) j.
  Proof.
    intros J HN HS HS' E E' j Hj. unfold compute_eta in *.
    assert (X := HS _ _ E). assert (X' := HS' _ _ E'). rewrite var0_scaled in X' |- *.
    set (eta := fst (solve (capital_delta M O (var0 M)) observed)) in *.
    set (eta' := fst (solve' (capital_delta M' O (scaled (var0 M))) observed)) in *.
    assert (Z : eta' j / c - eta j = 0).
    { apply (HN (fun k => eta' k / c - eta k)); [|exact Hj]. intros i Hi.
      rewrite (sumn_ext J _ (fun k => capital_delta M' O (scaled (var0 M)) i k * eta' k - capital_delta M O (var0 M) i k * eta k)).
      - rewrite sumn_minus, (X i Hi), (X' i Hi). ring.
      - intros k _. rewrite capital_delta_scaled. field. lra. }
    apply (Rmult_eq_compat_l c) in Z. rewrite Rmult_0_r in Z.
    replace (c * (eta' j / c - eta j)) with (eta' j - c * eta j) in Z by (field; lra). lra.
  Qed.
  Lemma costs_scaled solve solve' O observed : let J := mJ (fm M) in
    nonsingular J (capital_delta M O (var0 M)) -> exact_solver J solve -> exact_solver J solve' ->
    snd (compute_costs solve M O observed) = false -> snd (compute_costs solve' M' O observed) = false ->
    forall j, (j < J)%nat -> fst (compute_costs solve' M' O observed) j = c * fst (compute_costs solve M O observed) j.
  Proof.
    intros J HN HS HS' E E' j Hj. assert (X := eta_scaled solve solve' O observed HN HS HS').
    unfold compute_costs in *. destruct (compute_eta solve M O observed) as [eta b].
    destruct (compute_eta solve' M' O observed) as [eta' b']. cbn [fst snd] in *. rewrite (X E E' j Hj), var0_scaled.
    unfold scaled. ring.
  Qed.
  Lemma markups_same prices costs j : prices j <> 0 -> markups (scaled prices) (scaled costs) j = markups prices costs j.
  Proof. intros N. unfold markups, scaled. field. split; [exact N|lra]. Qed.
  Lemma profits_scaled prices shares costs j : profits (scaled prices) shares (scaled costs) j = c * profits prices shares costs j.
  Proof. unfold profits, scaled. ring. Qed.

  Lemma price_contraction_scaled O costs x j : lamda_at M x j <> 0 ->
    price_contraction M' O (scaled costs) (scaled x) j = c * price_contraction M O costs x j.
  Proof.
    intros N. unfold price_contraction, zeta. assert (E : fm M' = fm M) by apply H. rewrite E.
    rewrite lamda_scaled, shares_same.
    assert (EL : lamda_inv (lamda_at M x j / c) = c * lamda_inv (lamda_at M x j)).
    { unfold lamda_inv. destruct (Req_EM_T (lamda_at M x j) 0) as [Z|_]; [contradiction|].
      destruct (Req_EM_T (lamda_at M x j / c) 0) as [Z|_]; [|field; split; (exact N || lra)].
      exfalso. apply N. apply (Rmult_eq_compat_r c) in Z. unfold Rdiv in Z. rewrite Rmult_assoc, Rinv_l, Rmult_0_l in Z; lra. }
    rewrite EL. rewrite (sumn_ext _ _ (fun k => O k j * gamma_at M x k j * (x k - costs k))).
    - unfold scaled. ring.
    - intros k _. rewrite gamma_scaled. unfold scaled. field. lra.
  Qed.
  Lemma price_weights_scaled x j : price_weights M' (scaled x) j = price_weights M x j / c.
  Proof.
    unfold price_weights. rewrite lamda_scaled. unfold Rdiv. rewrite Rabs_mult, (Rabs_right (/ c)); [reflexivity|].
    apply Rle_ge, Rlt_le, Rinv_0_lt_compat, Hc.
  Qed.

  Lemma surplus_scaled avail mask x :
    (forall i, (i < fI M)%nat -> utility_derivatives M false (var0 M) i 0 <> 0) ->
    consumer_surplus M' avail mask (scaled x) = c * consumer_surplus M avail mask x.
  Proof.
    intros N. unfold consumer_surplus. assert (E2 : fI M' = fI M) by apply H. assert (E3 : fw M' = fw M) by apply H.
    rewrite E2, E3. rewrite <- sumn_scal. apply sumn_ext. intros i Hi. unfold individual_surplus.
    rewrite delta_same, mu_same, var0_scaled, derivatives_scaled. assert (E : fm M' = fm M) by apply H. rewrite E.
    specialize (N i Hi). field. split; [exact N|lra].
  Qed.

  (* ---------- Equilibrium prices ---------- *)
  Lemma convert_flat J x : convert c (flat J x) = flat J (scaled x).
  Proof. unfold convert, flat. rewrite map_map. reflexivity. Qed.
  Lemma convert_fin x : vfin (convert c x) = vfin x.
  Proof.
    unfold vfin, convert. induction x as [|a x IH]; [reflexivity|]. cbn [map forallb]. rewrite IH. f_equal.
    destruct a; cbn; try reflexivity; unfold finf.
    - destruct (Rlt_dec 0 c); [reflexivity|contradiction].
    - destruct (Rlt_dec 0 (- c)) as [L|_]; [lra|]. destruct (Rlt_dec (- c) 0); [reflexivity|lra].
  Qed.
  Lemma convert_column x : vfin x = true -> ConvModel.column (convert c x) = scaled (ConvModel.column x).
  Proof.
    intros F. apply functional_extensionality. intros j. unfold ConvModel.column, scaled, convert.
    revert j F. induction x as [|a x IH]; intros [|j] F; cbn [map nth fnum].
    - ring.
    - ring.
    - cbn in F. apply andb_prop in F. destruct a; cbn in *; try (destruct F; discriminate). reflexivity.
    - cbn in F. apply andb_prop in F. apply IH, F.
  Qed.
  Lemma fmul_convert a b : fmul (Num (a / c)) (fmul (Num c) (Num b)) = fmul (Num a) (Num b).
  Proof. cbn. f_equal. field. lra. Qed.

  Definition unweighted_flat J (w x : nat -> R) : vzip fmul (flat J w) (flat J x) = flat J (fun j => w j * x j).
  Proof.
    unfold flat. generalize (seq 0 J) as l. induction l as [|a l IH]; [reflexivity|]. cbn [map vzip]. rewrite IH. reflexivity.
  Qed.
  Lemma sub_flat J (x y : nat -> R) : vsub (flat J x) (flat J y) = flat J (fun j => x j - y j).
  Proof.
    unfold flat, vsub. generalize (seq 0 J) as l. induction l as [|a l IH]; [reflexivity|]. cbn [map vzip]. rewrite IH. reflexivity.
  Qed.
  Lemma flat_same J x y : (forall j, (j < J)%nat -> x j = y j) -> flat J x = flat J y.
  Proof. intros E. apply map_ext_in. intros j Hj. apply in_seq in Hj. rewrite E by lia. reflexivity. Qed.
  Lemma flat_fin J x : vfin (flat J x) = true.
  Proof. unfold vfin, flat. generalize (seq 0 J) as l. induction l as [|a l IH]; [reflexivity|]. exact IH. Qed.
  Lemma flat_column J x : vfin x = true -> length x = J -> x = flat J (ConvModel.column x).
  Proof.
    intros F L. apply (nth_ext _ _ NaN NaN); [unfold flat; rewrite map_length, seq_length; exact L|].
    intros j Hj. unfold flat. rewrite (nth_indep (map (fun j => Num (ConvModel.column x j)) (seq 0 J)) NaN (Num (ConvModel.column x 0))) by (rewrite map_length, seq_length; lia).
    rewrite (map_nth (fun j => Num (ConvModel.column x j))). rewrite seq_nth by lia. unfold ConvModel.column. cbn [plus].
    assert (Fj : ffin (nth j x NaN) = true).
    { unfold vfin in F. rewrite forallb_forall in F. apply F, nth_In, Hj. }
    destruct (nth j x NaN); try discriminate. reflexivity.
  Qed.

  Definition same_run (o o' : outcome) : Prop :=
    o_x o' = convert c (o_x o) /\ o_converged o' = o_converged o /\
    s_iterations (o_st o') = s_iterations (o_st o) /\ s_evaluations (o_st o') = s_evaluations (o_st o).

  Variables (O : nat -> nat -> R) (costs : nat -> R) (t : tolerance).
  Let J := mJ (fm M).
  Hypothesis HL : forall x j, (j < J)%nat -> lamda_at M x j <> 0.

  Lemma loop_scaled max fuel x ev s s' : vfin x = true -> length x = J ->
    s_iterations s' = s_iterations s -> s_evaluations s' = s_evaluations s ->
    match simple_loop fuel (prices_function M O costs) t max x ev s,
          simple_loop fuel (prices_function M' O (scaled costs)) t max (convert c x) ev s' with
    | Some o, Some o' => same_run o o'
    | None, None => True
    | _, _ => False
    end.
  Proof.
    revert x ev s s'. induction fuel as [|fuel IH]; intros x ev s s' F L Hi He; [exact I|].
    assert (EM : fm M' = fm M) by apply H.
    set (y := ConvModel.column x). set (nx := price_contraction M O costs y). set (w := price_weights M y).
    assert (E1 : flat J (price_contraction M' O (scaled costs) (scaled y)) = flat J (scaled nx)).
    { apply flat_same. intros j Hj. apply price_contraction_scaled, HL, Hj. }
    assert (E2 : flat J (price_weights M' (scaled y)) = flat J (fun j => w j / c)).
    { apply flat_same. intros j Hj. apply price_weights_scaled. }
    assert (P1 : forall log i e, prices_function M O costs log i e x = (flat J nx, Some (flat J w))).
    { intros. unfold prices_function. rewrite F. reflexivity. }
    assert (P2 : forall log i e, prices_function M' O (scaled costs) log i e (convert c x) = (flat J (scaled nx), Some (flat J (fun j => w j / c)))).
    { intros. unfold prices_function. rewrite convert_fin, F, EM. change (mJ (fm M)) with J. rewrite (convert_column x F). fold y.
      rewrite E1, E2. reflexivity. }
    cbn [simple_loop]. unfold evaluate. rewrite P1, P2. cbn [fst snd].
    unfold all_finite. rewrite !flat_fin. cbn [andb negb].
    assert (S1 : vsub (flat J nx) x = flat J (fun j => nx j - y j)).
    { rewrite <- sub_flat. f_equal. exact (flat_column J x F L). }
    assert (S2 : vsub (flat J (scaled nx)) (convert c x) = flat J (fun j => scaled nx j - scaled y j)).
    { rewrite <- sub_flat. f_equal. rewrite <- convert_flat. f_equal. exact (flat_column J x F L). }
    rewrite S1, S2.
    unfold termination_check, weight. rewrite !unweighted_flat.
    rewrite (flat_same J (fun j => w j / c * scaled nx j) (fun j => w j * nx j)) by (intros; unfold scaled; field; lra).
    rewrite (flat_same J (fun j => w j / c * (scaled nx j - scaled y j)) (fun j => w j * (nx j - y j))) by (intros; unfold scaled; field; lra).
    destruct (_ || _)%bool.
    - repeat split; cbn; try congruence. symmetry. apply convert_flat.
    - rewrite <- convert_flat. apply IH; [apply flat_fin|unfold flat; rewrite map_length, seq_length; reflexivity| |]; cbn; congruence.
  Qed.

  Lemma prices_scaled max start :
    match equilibrium_prices M O costs t max start, equilibrium_prices M' O (scaled costs) t max (option_map scaled start) with
    | Some o, Some o' => same_run o o'
    | None, None => True
    | _, _ => False
    end.
  Proof.
    unfold equilibrium_prices. assert (EM : fm M' = fm M) by apply H. rewrite EM. change (mJ (fm M)) with J.
    assert (E : flat J (match option_map scaled start with Some p => p | None => var0 M' end)
      = convert c (flat J (match start with Some p => p | None => var0 M end))).
    { rewrite convert_flat. destruct start; cbn [option_map]; [reflexivity|]. rewrite var0_scaled. reflexivity. }
    rewrite E. unfold simple_iterator. apply loop_scaled; try reflexivity; [apply flat_fin|].
    unfold flat. rewrite map_length, seq_length. reflexivity.
  Qed.
End Currency.

(** With columns that are linear in prices, adjusting coefficients is all it takes. *)
Lemma adjusted_currency c M : 0 < c ->
  (forall k, (k < fK1 M)%nat -> linear_in_prices (fX1 M k)) -> (forall k, (k < fK2 M)%nat -> linear_in_prices (fX2 M k)) ->
  other_currency c M (adjusted c M).
Proof.
  intros Hc H1 H2. repeat split.
  - intros x j. unfold update_delta. cbn [adjusted fK1 fX1 fbeta var0 delta0]. f_equal. apply sumn_ext. intros k Hk.
    destruct (uses (fX1 M k)) eqn:E; [|reflexivity]. destruct (H1 k Hk) as [F|[z F]]; [congruence|]. rewrite F. cbn [times_prices ev].
    field. lra.
  - intros x i j. unfold update_mu, compute_mu. cbn [adjusted fK2 fX2 fcoef X2_0]. apply sumn_ext. intros k Hk.
    destruct (uses (fX2 M k)) eqn:E; [|reflexivity]. destruct (H2 k Hk) as [F|[z F]]; [congruence|]. rewrite F. cbn [times_prices ev].
    field. lra.
  - intros x i j. unfold utility_derivatives. cbn [adjusted fm fK1 fX1 fbeta fK2 fX2 fcoef].
    assert (E1 : sumn (fK1 M) (fun k => (if uses (fX1 M k) then dv1 (fX1 M k) j (c * x j) else 0) * (if uses (fX1 M k) then fbeta M k / c else fbeta M k))
      = sumn (fK1 M) (fun k => (if uses (fX1 M k) then dv1 (fX1 M k) j (x j) else 0) * fbeta M k) / c).
    { unfold Rdiv. rewrite <- sumn_scal_r. apply sumn_ext. intros k Hk. destruct (uses (fX1 M k)) eqn:E; [|ring].
      destruct (H1 k Hk) as [F|[z F]]; [congruence|]. rewrite F. cbn [times_prices dv1]. ring. }
    assert (E2 : sumn (fK2 M) (fun k => (if uses (fX2 M k) then dv1 (fX2 M k) j (c * x j) else 0) * (if uses (fX2 M k) then fcoef M k j i / c else fcoef M k j i))
      = sumn (fK2 M) (fun k => (if uses (fX2 M k) then dv1 (fX2 M k) j (x j) else 0) * fcoef M k j i) / c).
    { unfold Rdiv. rewrite <- sumn_scal_r. apply sumn_ext. intros k Hk. destruct (uses (fX2 M k)) eqn:E; [|ring].
      destruct (H2 k Hk) as [F|[z F]]; [congruence|]. rewrite F. cbn [times_prices dv1]. ring. }
    rewrite E1, E2. destruct (Req_EM_T (eps_scale (fm M)) 1); unfold Rdiv; ring.
Qed.

(** Characteristics with random coefficients that are not exponentiated. *)
Lemma mu_units u t sigma pi i j : (forall k, (k < r_K2 t)%nat -> r_types t k = RCLinear /\ u k <> 0) ->
  mu_of (other_units u t) (fun k l => sigma k l / u k) (fun k d => pi k d / u k) i j = mu_of t sigma pi i j.
Proof.
  intros Hu. unfold mu_of. cbn [other_units r_K2 r_X2]. apply sumn_ext. intros k Hk. destruct (Hu k Hk) as [E N].
  unfold random_coefficients. cbn [other_units r_K2 r_D r_types r_nodes r_dem]. rewrite E. cbn [rc_transform].
  rewrite (sumn_ext (r_K2 t) (fun l => sigma k l / u k * r_nodes t i l) (fun l => sigma k l * r_nodes t i l * / u k)) by (intros; unfold Rdiv; ring).
  rewrite (sumn_ext (r_D t) (fun d => pi k d / u k * r_dem t i d j) (fun d => pi k d * r_dem t i d j * / u k)) by (intros; unfold Rdiv; ring).
  rewrite !sumn_scal_r. field. exact N.
Qed.
