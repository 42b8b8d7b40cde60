(** Lemmas about products that are split into copies. *)
From Coq Require Import Reals Lra Lia List Bool Arith FunctionalExtensionality.
From Verif Require AverageProofs.
From Verif Require Import Base DemandModel DemandSpec DemandProofs DemandShares DemandElim DemandDeriv SupplyModel SupplySpec SupplyProofs
  WelfareModel WelfareSpec WelfareProofs SplitSpec.
Import ListNotations.
Local Open Scope R_scope.

Section Split.
  Variables (m : market) (J' : nat) (h : nat -> nat) (f : nat -> R).
  Hypothesis V : valid_market m.
  Hypothesis D : divides (mJ m) J' h f.
  Let m' := split_market J' h m.

  Lemma split_fibre (g : nat -> R) : sumn J' (fun k => f k * g (h k)) = sumn (mJ m) g.
  Proof.
    rewrite (AverageProofs.sumn_fibre (mJ m) J' h f g (dv_copy _ _ _ _ D)). apply sumn_ext. intros j Hj.
    rewrite (dv_whole _ _ _ _ D j Hj). ring.
  Qed.
  Lemma split_surjective j : (j < mJ m)%nat -> exists k, (k < J')%nat /\ h k = j.
  Proof.
    intros Hj. assert (W := dv_whole _ _ _ _ D j Hj).
    destruct (existsb (fun k => Nat.eqb (h k) j) (seq 0 J')) eqn:E.
    - apply existsb_exists in E. destruct E as [k [Ik E]]. apply in_seq in Ik. exists k. split; [lia|]. apply Nat.eqb_eq. exact E.
    - exfalso. rewrite (sumn_ext J' _ (fun _ => 0)) in W.
      + assert (Z := sumn_scal J' 0 (fun _ => 0)). rewrite (sumn_ext J' _ (fun _ => 0)) in Z by (intros; ring). lra.
      + intros k Hk. destruct (Nat.eqb (h k) j) eqn:Ek; [|reflexivity].
        exfalso. assert (T : existsb (fun k => Nat.eqb (h k) j) (seq 0 J') = true) by (apply existsb_exists; exists k; split; [apply in_seq; lia|exact Ek]).
        rewrite T in E. discriminate.
  Qed.
  Lemma split_valid : valid_market m'.
  Proof.
    destruct V as [v1 v2 v3 v4 v5 v6]. split; cbn [m' split_market mJ mH gid rho_multi grho eps_scale]; try assumption.
    - destruct (split_surjective 0 v1) as [k [Hk _]]. lia.
    - intros N j Hj. apply v2; [exact N|]. apply (dv_copy _ _ _ _ D). exact Hj.
  Qed.

  Lemma scaled_split delta mu k : (k < J')%nat ->
    scaled_utilities m' (split_delta m h f delta) (fun k => mu (h k)) k = scaled_utilities m delta mu (h k) + ln (f k).
  Proof.
    intros Hk. destruct V as [v1 v2 v3 v4 v5 v6]. unfold scaled_utilities, split_delta, dilution, rho.
    change (eps_scale m') with (eps_scale m). change (mH m') with (mH m). change (grho m' (gid m' k)) with (grho m (gid m (h k))).
    destruct (Nat.eqb_spec (mH m) 0) as [e|n].
    - destruct (Req_EM_T (eps_scale m) 1) as [e1|n1]; [rewrite e1; ring|]. field. lra.
    - rewrite (v6 n). assert (grho m (gid m (h k)) < 1) by (apply v3; [exact n|]; apply v2; [exact n|]; apply (dv_copy _ _ _ _ D); exact Hk).
      destruct (Req_EM_T 1 1) as [_|C]; [|lra]. field. lra.
  Qed.
  Lemma restrict_split c e k : restrict_choice (split_choice h c) (fun k => f k * e (h k)) k = f k * restrict_choice c e (h k).
  Proof.
    unfold restrict_choice, split_choice. destruct c as [out [a|] [j|] [b|]]; cbn; try destruct (Nat.eqb (h k) j); try destruct (b (h k)); cbn; ring.
  Qed.
  Lemma gsum_split (e : nat -> R) g : gsum m' (fun k => f k * e (h k)) g = gsum m e g.
  Proof.
    unfold gsum. change (mJ m') with J'. rewrite <- split_fibre. apply sumn_ext. intros k _. change (gid m' k) with (gid m (h k)).
    destruct (Nat.eqb (gid m (h k)) g); ring.
  Qed.
  Lemma div_or_zero_mult c x y : div_or_zero (c * x) y = c * div_or_zero x y.
  Proof. unfold div_or_zero. destruct (Req_EM_T y 0) as [|n]; [ring|field; exact n]. Qed.

  Lemma probabilities_split_exact c delta mu :
    (forall k, (k < J')%nat ->
       fst (probabilities_linear m' (split_choice h c) false (split_delta m h f delta) (fun k => mu (h k))) k =
       f k * fst (probabilities_linear m c false delta mu) (h k)) /\
    match snd (probabilities_linear m' (split_choice h c) false (split_delta m h f delta) (fun k => mu (h k))),
          snd (probabilities_linear m c false delta mu) with
    | Some x, Some y => forall k, (k < J')%nat -> x k = f k * y (h k)
    | None, None => True
    | _, _ => False
    end.
  Proof.
    unfold probabilities_linear. set (u := scaled_utilities m delta mu).
    destruct (finish_ext m' (split_choice h c) None None
                (fun k => exp (scaled_utilities m' (split_delta m h f delta) (fun k => mu (h k)) k)) (fun k => f k * exp (u (h k)))) as [G1 G2].
    { intros k Hk. rewrite scaled_split by exact Hk. rewrite exp_plus, (exp_ln (f k)) by (apply (dv_part _ _ _ _ D); exact Hk). unfold u. ring. }
    assert (R : restrict_choice (split_choice h c) (fun k => f k * exp (u (h k))) = fun k => f k * restrict_choice c (fun j => exp (u j)) (h k)).
    { apply functional_extensionality. intros k. exact (restrict_split c (fun j => exp (u j)) k). }
    set (e := restrict_choice c (fun j => exp (u j))) in *.
    split.
    - intros k Hk. etransitivity; [apply G1; exact Hk|]. unfold finish_probabilities. rewrite R. change (mH m') with (mH m).
      destruct (Nat.eqb (mH m) 0) eqn:E; cbn [fst].
      + unfold scale. cbn [split_choice c_eliminate_outside]. change (mJ m') with J'. rewrite (split_fibre e). fold e. unfold Rdiv. apply Rmult_assoc.
      + unfold scale. cbn [split_choice c_eliminate_outside]. rewrite (gsum_split e), div_or_zero_mult. change (gid m' k) with (gid m (h k)). change (grho m') with (grho m).
        rewrite Rmult_assoc. f_equal. f_equal. f_equal. f_equal. apply sumn_ext. intros b _. rewrite (gsum_split e). reflexivity.
    - revert G2. unfold finish_probabilities. rewrite R. change (mH m') with (mH m). destruct (Nat.eqb (mH m) 0) eqn:E; cbn [snd]; [tauto|].
      intros G2 k Hk. rewrite G2 by exact Hk. rewrite (gsum_split e), div_or_zero_mult. reflexivity.
  Qed.
  Lemma probabilities_split c safe safe' delta mu :
    (forall k, (k < J')%nat ->
       fst (probabilities_linear m' (split_choice h c) safe' (split_delta m h f delta) (fun k => mu (h k))) k =
       f k * fst (probabilities_linear m c safe delta mu) (h k)) /\
    match snd (probabilities_linear m' (split_choice h c) safe' (split_delta m h f delta) (fun k => mu (h k))),
          snd (probabilities_linear m c safe delta mu) with
    | Some x, Some y => forall k, (k < J')%nat -> x k = f k * y (h k)
    | None, None => True
    | _, _ => False
    end.
  Proof.
    destruct (probabilities_split_exact c delta mu) as [E1 E2].
    destruct (safe_is_exact m' (split_choice h c) (split_delta m h f delta) (fun k => mu (h k)) split_valid) as [A1 A2].
    destruct (safe_is_exact m c delta mu V) as [B1 B2].
    assert (HC := dv_copy _ _ _ _ D).
    split.
    - intros k Hk. destruct safe', safe; rewrite ?(A1 k Hk), ?(B1 (h k) (HC k Hk)); apply E1; exact Hk.
    - revert E2 A2 B2.
      destruct (snd (probabilities_linear m' (split_choice h c) false _ _)) as [x|] eqn:Ex, (snd (probabilities_linear m c false delta mu)) as [y|] eqn:Ey;
      destruct (snd (probabilities_linear m' (split_choice h c) true _ _)) as [x'|] eqn:Ex', (snd (probabilities_linear m c true delta mu)) as [y'|] eqn:Ey';
      destruct safe', safe; rewrite ?Ex', ?Ey', ?Ey, ?Ex; intros E2 A2 B2; try contradiction; try exact I; intros k Hk;
      rewrite ?A2, ?B2 by (try exact Hk; apply HC; exact Hk); try (apply E2; exact Hk).
  Qed.

  Lemma full_choice_split safe delta mu :
    probabilities_linear m' (split_choice h full_choice) safe delta mu = probabilities_linear m' full_choice safe delta mu.
  Proof. reflexivity. Qed.
  Lemma shares_split a safe safe' delta k : (k < J')%nat ->
    market_shares m' (split_agents h a) safe' (split_delta m h f delta) k = f k * market_shares m a safe delta (h k).
  Proof.
    intros Hk. unfold market_shares, split_agents. cbn [aI aw amu]. rewrite <- sumn_scal. apply sumn_ext. intros i _.
    rewrite <- full_choice_split. rewrite (proj1 (probabilities_split full_choice safe safe' delta (amu a i)) k Hk). ring.
  Qed.
  Lemma fibre_sum (g : nat -> R) j : (j < mJ m)%nat ->
    sumn J' (fun k => if Nat.eqb (h k) j then f k * g (h k) else 0) = g j.
  Proof.
    intros Hj. rewrite (sumn_ext J' _ (fun k => (if Nat.eqb (h k) j then f k else 0) * g j)).
    - rewrite sumn_scal_r, (dv_whole _ _ _ _ D j Hj). ring.
    - intros k _. destruct (Nat.eqb_spec (h k) j) as [->|N]; ring.
  Qed.
  Lemma contraction_split a safe safe' shares x k : valid_agents a -> (forall j, (j < mJ m)%nat -> 0 < shares j) -> (k < J')%nat ->
    contraction m' (split_agents h a) safe' (None, None) (fun k => f k * shares (h k)) (split_delta m h f x) k =
    split_delta m h f (contraction m a safe (None, None) shares x) k.
  Proof.
    intros A P Hk. assert (Hh := dv_copy _ _ _ _ D k Hk). assert (Hf := dv_part _ _ _ _ D k Hk).
    unfold contraction, clip_share. cbn [fst]. rewrite (shares_split a safe safe' x k Hk).
    assert (Q := market_shares_pos m a safe x (h k) V A Hh). specialize (P (h k) Hh).
    change (mH m') with (mH m). change (rho m' k) with (rho m (h k)).
    unfold split_delta. rewrite !ln_mult by assumption.
    destruct (Nat.eqb (mH m) 0); ring.
  Qed.
  Lemma closed_form_split shares k : (forall j, (j < mJ m)%nat -> 0 < shares j) -> (k < J')%nat ->
    closed_form_delta m' (fun k => f k * shares (h k)) k = split_delta m h f (closed_form_delta m shares) k.
  Proof.
    intros P Hk. assert (Hh := dv_copy _ _ _ _ D k Hk). assert (Hf := dv_part _ _ _ _ D k Hk). specialize (P (h k) Hh).
    unfold closed_form_delta, split_delta, dilution. change (mH m') with (mH m). change (mJ m') with J'. change (eps_scale m') with (eps_scale m).
    change (rho m' k) with (grho m (gid m (h k))). change (gid m' k) with (gid m (h k)). unfold rho.
    rewrite (split_fibre shares), (gsum_split shares), ln_mult by assumption.
    destruct (Nat.eqb_spec (mH m) 0) as [e|n].
    - destruct (Req_EM_T (eps_scale m) 1) as [e1|n1]; [rewrite e1|]; ring.
    - rewrite (vm_eps_nest m V n). destruct (Req_EM_T 1 1) as [_|C]; [ring|lra].
  Qed.
  Lemma inverse_split a safe safe' x y : valid_agents a -> (mH m <> O -> forall g, (g < mH m)%nat -> 0 <= grho m g) ->
    (forall k, (k < J')%nat -> market_shares m' (split_agents h a) safe' y k = f k * market_shares m a safe x (h k)) ->
    forall k, (k < J')%nat -> y k = split_delta m h f x k.
  Proof.
    intros A P E. apply (shares_injective m' (split_agents h a) safe' y (split_delta m h f x) split_valid A P).
    intros k Hk. change (mJ m') with J' in Hk. rewrite (E k Hk). symmetry. apply shares_split. exact Hk.
  Qed.

  (** Consumer surplus. *)
  Lemma inclusive_split (inc : nat -> bool) U g : eps_scale m = 1 ->
    inclusive J' (gidx m') (grhox m') (fun k => inc (h k)) (split_delta m h f U) g = inclusive (mJ m) (gidx m) (grhox m) inc U g.
  Proof.
    intros e1. unfold inclusive. rewrite <- split_fibre. apply sumn_ext. intros k Hk.
    assert (Hh := dv_copy _ _ _ _ D k Hk). assert (Hf := dv_part _ _ _ _ D k Hk).
    unfold gidx, grhox. change (mH m') with (mH m). change (grho m') with (grho m). change (gid m' k) with (gid m (h k)).
    unfold split_delta, dilution. rewrite e1. destruct (Nat.eqb_spec (mH m) 0) as [e|n].
    - destruct (inc (h k) && (0 =? g)%nat); [|ring]. rewrite <- (exp_ln (f k)) at 2 by exact Hf. rewrite <- exp_plus. f_equal. field.
    - destruct (inc (h k)); cbn [andb]; [|ring]. destruct (Nat.eqb_spec (gid m (h k)) g) as [<-|N]; [|ring].
      rewrite <- (exp_ln (f k)) at 2 by exact Hf. rewrite <- exp_plus. f_equal. field.
      assert (L := vm_rho m V n (gid m (h k)) (vm_gid m V n (h k) Hh)). lra.
  Qed.
  Lemma surplus_split avail mask delta mu : eps_scale m = 1 ->
    surplus_numerator m' (option_map (fun (b : nat -> bool) k => indR (b (h k))) avail) (option_map (fun b k => b (h k)) mask)
      (split_delta m h f delta) (fun k => mu (h k)) =
    surplus_numerator m (option_map (fun (b : nat -> bool) j => indR (b j)) avail) mask delta mu.
  Proof.
    intros e1.
    transitivity (surplus_numerator m' (option_map (fun (b : nat -> bool) k => indR (b k)) (option_map (fun b k => b (h k)) avail))
                    (option_map (fun b k => b (h k)) mask) (split_delta m h f delta) (fun k => mu (h k))).
    { destruct avail; reflexivity. }
    rewrite (surplus_numerator_exact m' _ _ _ _ split_valid), (surplus_numerator_exact m _ _ _ _ V). f_equal. f_equal.
    unfold surplus_weights. change (grpn m') with (grpn m). apply sumn_ext. intros g _.
    rewrite <- !exp_log_mult_weight. change (mJ m') with J'. change (grhox m') with (grhox m) at 2. f_equal.
    transitivity (inclusive J' (gidx m') (grhox m') (fun k => included avail None mask (h k)) (split_delta m h f (fun j => delta j + mu j)) g).
    - unfold inclusive. apply sumn_ext. intros k _.
      replace (included (option_map (fun b k => b (h k)) avail) None (option_map (fun b k => b (h k)) mask) k) with (included avail None mask (h k))
        by (unfold included; destruct avail, mask; reflexivity).
      replace (split_delta m h f delta k + mu (h k)) with (split_delta m h f (fun j => delta j + mu j) k) by (unfold split_delta; ring). reflexivity.
    - apply inclusive_split. exact e1.
  Qed.
End Split.

Section Full.
  Variables (M : full_market) (J' : nat) (h : nat -> nat) (f : nat -> R).
  Hypothesis V : valid_market (fm M).
  Hypothesis D : divides (mJ (fm M)) J' h f.
  Let M' := split_full J' h f M.

  Lemma split_delta_at x : update_delta M' (fun k => x (h k)) = split_delta (fm M) h f (update_delta M x).
  Proof. apply functional_extensionality. intros k. unfold update_delta, split_delta. cbn. unfold split_delta. ring. Qed.
  Lemma split_mu_at x i : update_mu M' (fun k => x (h k)) i = fun k => update_mu M x i (h k).
  Proof. reflexivity. Qed.
  Lemma split_derivatives second x i k : utility_derivatives M' second (fun k => x (h k)) i k = utility_derivatives M second x i (h k).
  Proof. destruct second; reflexivity. Qed.
  Lemma probs_split x i k : (k < J')%nat ->
    probs (fm M') (update_delta M' (fun k => x (h k))) (update_mu M' (fun k => x (h k))) i k = f k * probs (fm M) (update_delta M x) (update_mu M x) i (h k).
  Proof.
    intros Hk. unfold probs. rewrite split_delta_at, split_mu_at.
    exact (proj1 (probabilities_split (fm M) J' h f V D full_choice true true (update_delta M x) (update_mu M x i)) k Hk).
  Qed.
  Lemma conds_split x i k : (k < J')%nat ->
    conds (fm M') (update_delta M' (fun k => x (h k))) (update_mu M' (fun k => x (h k))) i k = f k * conds (fm M) (update_delta M x) (update_mu M x) i (h k).
  Proof.
    intros Hk. unfold conds. rewrite split_delta_at, split_mu_at.
    assert (H := proj2 (probabilities_split (fm M) J' h f V D full_choice true true (update_delta M x) (update_mu M x i))).
    change (probabilities_linear (fm M') full_choice) with (probabilities_linear (split_market J' h (fm M)) (split_choice h full_choice)).
    destruct (snd (probabilities_linear (split_market J' h (fm M)) (split_choice h full_choice) true _ _)) as [c'|];
      destruct (snd (probabilities_linear (fm M) full_choice true (update_delta M x) (update_mu M x i))) as [c|]; try contradiction.
    - exact (H k Hk).
    - ring.
  Qed.
  Lemma shares_at_split x k : (k < J')%nat -> shares_at M' (fun k => x (h k)) k = f k * shares_at M x (h k).
  Proof.
    intros Hk. unfold shares_at. cbn [M' split_full fI fw]. rewrite <- sumn_scal. apply sumn_ext. intros i _. rewrite probs_split by exact Hk. ring.
  Qed.
  Lemma lamda_split x k : (k < J')%nat -> lamda_at M' (fun k => x (h k)) k = f k * lamda_at M x (h k).
  Proof.
    intros Hk. unfold lamda_at, capital_lamda. cbv zeta. change (fI M') with (fI M). change (fw M') with (fw M).
    change (mH (fm M')) with (mH (fm M)). change (rho (fm M') k) with (rho (fm M) (h k)).
    rewrite (sumn_ext (fI M) _ (fun i => f k * (probs (fm M) (update_delta M x) (update_mu M x) i (h k) * utility_derivatives M false x i (h k) * fw M i))).
    2: { intros i _. rewrite probs_split by exact Hk. change (utility_derivatives M' false (fun k => x (h k)) i k) with (utility_derivatives M false x i (h k)). ring. }
    rewrite sumn_scal. destruct (Nat.eqb (mH (fm M)) 0); [reflexivity|]. unfold Rdiv. ring.
  Qed.
  Lemma gamma_split x l k : (l < J')%nat -> (k < J')%nat -> gamma_at M' (fun k => x (h k)) l k = f l * f k * gamma_at M x (h l) (h k).
  Proof.
    intros Hl Hk. unfold gamma_at, capital_gamma. cbv zeta. change (fI M') with (fI M). change (fw M') with (fw M).
    change (mH (fm M')) with (mH (fm M)). change (rho (fm M') l) with (rho (fm M) (h l)).
    change (membership (fm M') l k) with (membership (fm M) (h l) (h k)).
    rewrite (sumn_ext (fI M) _ (fun i => f l * f k * (probs (fm M) (update_delta M x) (update_mu M x) i (h l) *
      (fw M i * (probs (fm M) (update_delta M x) (update_mu M x) i (h k) * utility_derivatives M false x i (h k)))))).
    2: { intros i _. rewrite !probs_split by assumption. change (utility_derivatives M' false (fun k => x (h k)) i k) with (utility_derivatives M false x i (h k)). ring. }
    rewrite (sumn_ext (fI M) (fun i => conds _ _ _ i l * _) (fun i => f l * f k * (conds (fm M) (update_delta M x) (update_mu M x) i (h l) *
      (fw M i * (probs (fm M) (update_delta M x) (update_mu M x) i (h k) * utility_derivatives M false x i (h k)))))).
    2: { intros i _. rewrite conds_split, probs_split by assumption. change (utility_derivatives M' false (fun k => x (h k)) i k) with (utility_derivatives M false x i (h k)). ring. }
    rewrite !sumn_scal. destruct (Nat.eqb (mH (fm M)) 0); [reflexivity|]. ring.
  Qed.
  Lemma jacobian_split x l k : (l < J')%nat -> (k < J')%nat ->
    shares_jacobian M' (fun k => x (h k)) l k = (if Nat.eqb l k then f k * lamda_at M x (h k) else 0) - f l * f k * gamma_at M x (h l) (h k).
  Proof.
    intros Hl Hk. rewrite <- (gamma_split x l k Hl Hk). unfold shares_jacobian, jacobian_of.
    fold (gamma_at M' (fun k => x (h k))). fold (lamda_at M' (fun k => x (h k))). rewrite (lamda_split x l Hl).
    destruct (Nat.eqb_spec l k) as [->|N]; reflexivity.
  Qed.
  Lemma jacobian_at x j i : shares_jacobian M x j i = (if Nat.eqb j i then lamda_at M x i else 0) - gamma_at M x j i.
  Proof. unfold shares_jacobian, jacobian_of, lamda_at, gamma_at. destruct (Nat.eqb_spec j i) as [->|N]; reflexivity. Qed.
  Lemma jacobian_total x j k : (j < mJ (fm M))%nat -> (k < J')%nat ->
    sumn J' (fun l => if Nat.eqb (h l) j then shares_jacobian M' (fun k => x (h k)) l k else 0) = f k * shares_jacobian M x j (h k).
  Proof.
    intros Hj Hk.
    rewrite (sumn_ext J' _ (fun l => (if Nat.eqb l k then (if Nat.eqb (h k) j then f k * lamda_at M x (h k) else 0) else 0)
      - f k * (if Nat.eqb (h l) j then f l * gamma_at M x (h l) (h k) else 0))).
    2: { intros l Hl. rewrite jacobian_split by assumption. destruct (Nat.eqb_spec l k) as [->|N]; destruct (Nat.eqb _ j); ring. }
    rewrite sumn_minus, sumn_scal, (sumn_delta J' k (fun _ => if Nat.eqb (h k) j then f k * lamda_at M x (h k) else 0) Hk).
    rewrite (fibre_sum (fm M) J' h f D (fun j => gamma_at M x j (h k)) j Hj), jacobian_at, Nat.eqb_sym.
    destruct (Nat.eqb j (h k)); ring.
  Qed.

  Lemma markup_split O x mk k : (k < J')%nat ->
    shares_at M' (fun k => x (h k)) k + sumn J' (fun l => O (h k) (h l) * shares_jacobian M' (fun k => x (h k)) l k * mk (h l)) =
    f k * (shares_at M x (h k) + sumn (mJ (fm M)) (fun j => O (h k) j * shares_jacobian M x j (h k) * mk j)).
  Proof.
    intros Hk. rewrite shares_at_split by exact Hk. rewrite Rmult_plus_distr_l. f_equal.
    rewrite (sumn_ext J' _ (fun l => (if Nat.eqb l k then f k * (O (h k) (h k) * lamda_at M x (h k) * mk (h k)) else 0)
      - f k * (f l * (O (h k) (h l) * gamma_at M x (h l) (h k) * mk (h l))))).
    2: { intros l Hl. rewrite jacobian_split by assumption. destruct (Nat.eqb_spec l k) as [->|N]; ring. }
    rewrite sumn_minus, sumn_scal, (sumn_delta J' k (fun _ => f k * (O (h k) (h k) * lamda_at M x (h k) * mk (h k))) Hk).
    rewrite (split_fibre (fm M) J' h f D (fun j => O (h k) j * gamma_at M x j (h k) * mk j)).
    rewrite (sumn_ext (mJ (fm M)) (fun j => O (h k) j * shares_jacobian M x j (h k) * mk j)
      (fun j => (if Nat.eqb j (h k) then O (h k) (h k) * lamda_at M x (h k) * mk (h k) else 0) - O (h k) j * gamma_at M x j (h k) * mk j)).
    2: { intros j _. rewrite jacobian_at. destruct (Nat.eqb_spec j (h k)) as [->|N]; ring. }
    rewrite sumn_minus, (sumn_delta (mJ (fm M)) (h k) (fun _ => O (h k) (h k) * lamda_at M x (h k) * mk (h k)) (dv_copy _ _ _ _ D k Hk)). ring.
  Qed.
  Lemma markup_equation_split O x mk :
    markup_equation J' (fun k l => O (h k) (h l)) (shares_jacobian M' (fun k => x (h k))) (shares_at M' (fun k => x (h k))) (fun k => mk (h k)) <->
    markup_equation (mJ (fm M)) O (shares_jacobian M x) (shares_at M x) mk.
  Proof.
    unfold markup_equation. split.
    - intros H j Hj. destruct (split_surjective (fm M) J' h f D j Hj) as [k [Hk <-]]. specialize (H k Hk).
      rewrite (markup_split O x mk k Hk) in H. assert (P := dv_part _ _ _ _ D k Hk).
      apply (Rmult_eq_reg_l (f k)); [rewrite H; ring|lra].
    - intros H k Hk. rewrite (markup_split O x mk k Hk), (H (h k) (dv_copy _ _ _ _ D k Hk)). ring.
  Qed.
  Lemma good_columns_split x : good_columns M x -> good_columns M' (fun k => x (h k)).
  Proof.
    intros [G1 G2]. split; intros c j U Hc Hj.
    - apply (G1 c (h j) U Hc). apply (dv_copy _ _ _ _ D). exact Hj.
    - apply (G2 c (h j) U Hc). apply (dv_copy _ _ _ _ D). exact Hj.
  Qed.
  Lemma bertrand_split O costs x : good_columns M x -> (forall j, (j < mJ (fm M))%nat -> O j j = 1) ->
    bertrand J' (fun k l => O (h k) (h l)) (fun k => costs (h k)) (shares_at M') (fun k => x (h k)) <->
    bertrand (mJ (fm M)) O costs (shares_at M) x.
  Proof.
    intros G HO.
    assert (V' := split_valid (fm M) J' h f V D).
    rewrite (bertrand_iff_markup M O costs x V G HO).
    rewrite <- (markup_equation_split O x (fun j => x j - costs j)).
    apply (bertrand_iff_markup M' (fun k l => O (h k) (h l)) (fun k => costs (h k)) (fun k => x (h k)) V' (good_columns_split x G)).
    intros k Hk. apply HO. apply (dv_copy _ _ _ _ D). exact Hk.
  Qed.
  Lemma price_contraction_split O costs x k : (k < J')%nat -> lamda_at M x (h k) <> 0 ->
    price_contraction M' (fun k l => O (h k) (h l)) (fun k => costs (h k)) (fun k => x (h k)) k = price_contraction M O costs x (h k).
  Proof.
    intros Hk N. unfold price_contraction, zeta. f_equal. rewrite (lamda_split x k Hk), (shares_at_split x k Hk).
    change (mJ (fm M')) with J'. assert (P := dv_part _ _ _ _ D k Hk).
    rewrite (sumn_ext J' _ (fun l => f k * (f l * (O (h l) (h k) * gamma_at M x (h l) (h k) * (x (h l) - costs (h l)))))).
    2: { intros l Hl. rewrite gamma_split by assumption. ring. }
    rewrite sumn_scal, (split_fibre (fm M) J' h f D (fun j => O j (h k) * gamma_at M x j (h k) * (x j - costs j))).
    unfold lamda_inv. destruct (Req_EM_T (f k * lamda_at M x (h k)) 0) as [e|n].
    - apply Rmult_integral in e. destruct e; lra.
    - destruct (Req_EM_T (lamda_at M x (h k)) 0) as [e|_]; [contradiction|]. field. split; [exact N|lra].
  Qed.
  Lemma consumer_surplus_split avail mask x : eps_scale (fm M) = 1 ->
    (forall i, (i < fI M)%nat -> utility_derivatives M false (var0 M) i (h O) = utility_derivatives M false (var0 M) i 0) ->
    consumer_surplus M' (fun i => option_map (fun (b : nat -> bool) k => indR (b (h k))) (avail i)) (option_map (fun b k => b (h k)) mask) (fun k => x (h k)) =
    consumer_surplus M (fun i => option_map (fun (b : nat -> bool) j => indR (b j)) (avail i)) mask x.
  Proof.
    intros e1 H. unfold consumer_surplus. change (fI M') with (fI M). change (fw M') with (fw M). apply sumn_ext. intros i Hi.
    f_equal. unfold individual_surplus. rewrite split_delta_at, split_mu_at.
    change (utility_derivatives M' false (var0 M') i 0) with (utility_derivatives M false (var0 M) i (h O)). rewrite (H i Hi). f_equal.
    apply (surplus_split (fm M) J' h f V D). exact e1.
  Qed.
  Lemma aggregate_split observed factor :
    aggregate_elasticity M' (fun k => f k * observed (h k)) factor = aggregate_elasticity M observed factor.
  Proof.
    unfold aggregate_elasticity. f_equal. change (mJ (fm M')) with J'.
    rewrite <- (split_fibre (fm M) J' h f D). apply sumn_ext. intros k Hk.
    transitivity (f k * shares_at M (fun j => (1 + factor) * var0 M j) (h k) - f k * observed (h k)); [|ring].
    f_equal. exact (shares_at_split (fun j => (1 + factor) * var0 M j) k Hk).
  Qed.
End Full.

(** HHI. *)
Lemma total_app {A} (g : A -> R) l l' : total g (l ++ l') = total g l + total g l'.
Proof. induction l as [|x l IH]; [change (total g l' = 0 + total g l'); ring|]. cbn [app]. rewrite !total_cons, IH. ring. Qed.
Lemma total_rows {A} (g : A -> R) (r : nat -> A) n : total g (map r (seq 0 n)) = sumn n (fun j => g (r j)).
Proof.
  induction n as [|n IH]; [reflexivity|]. rewrite seq_S, map_app, total_app, IH. cbn. ring.
Qed.
Lemma hhi_split J J' h f firm (s : nat -> R) : divides J J' h f ->
  compute_hhi (map (fun k => (firm (h k), f k * s (h k))) (seq 0 J')) = compute_hhi (map (fun j => (firm j, s j)) (seq 0 J)).
Proof.
  intros D. rewrite !hhi_products. f_equal. rewrite !total_rows. cbn [fst snd].
  assert (F : forall g : nat -> R, sumn J' (fun k => f k * g (h k)) = sumn J g).
  { intros g. rewrite (AverageProofs.sumn_fibre J J' h f g (dv_copy _ _ _ _ D)). apply sumn_ext. intros j Hj. rewrite (dv_whole _ _ _ _ D j Hj). ring. }
  rewrite (F s). etransitivity; [|apply F]. apply sumn_ext. intros k _.
  replace (fs (map (fun k0 => (firm (h k0), f k0 * s (h k0))) (seq 0 J')) (firm (h k))) with (fs (map (fun j => (firm j, s j)) (seq 0 J)) (firm (h k))).
  - unfold Rdiv. cbn beta. change (sumn J (fun j => s j)) with (sumn J s). ring.
  - unfold fs. rewrite !total_rows. cbn [fst snd]. symmetry. etransitivity; [|apply F]. apply sumn_ext. intros l _. cbn beta. destruct (Z.eqb _ _); ring.
Qed.

(** Copies that are as good as what they are copies of. *)
Lemma copies_pos J' h j k : (k < J')%nat -> h k = j -> 0 < copies J' h j.
Proof.
  intros Hk E. unfold copies.
  apply Rlt_le_trans with ((fun i => if Nat.eqb (h i) j then 1 else 0) k).
  - cbn beta. rewrite E, Nat.eqb_refl. lra.
  - rewrite <- (sumn_delta J' k (fun i => if Nat.eqb (h i) j then 1 else 0) Hk).
    apply sumn_le. intros i _. destruct (Nat.eqb i k), (Nat.eqb (h i) j); lra.
Qed.
Lemma copies_divide J J' h : (forall k, (k < J')%nat -> (h k < J)%nat) -> (forall j, (j < J)%nat -> exists k, (k < J')%nat /\ h k = j) ->
  divides J J' h (fun k => / copies J' h (h k)).
Proof.
  intros C Q. split.
  - exact C.
  - intros k Hk. apply Rinv_0_lt_compat. apply (copies_pos J' h (h k) k Hk eq_refl).
  - intros j Hj. destruct (Q j Hj) as [k [Hk E]]. assert (P := copies_pos J' h j k Hk E).
    rewrite (sumn_ext J' _ (fun k => (if Nat.eqb (h k) j then 1 else 0) * / copies J' h j)).
    + rewrite sumn_scal_r. fold (copies J' h j). field. lra.
    + intros i _. destruct (Nat.eqb_spec (h i) j) as [->|N]; ring.
Qed.
Lemma identical_products m J' h a safe safe' delta : valid_market m ->
  (forall k, (k < J')%nat -> (h k < mJ m)%nat) -> (forall j, (j < mJ m)%nat -> exists k, (k < J')%nat /\ h k = j) ->
  forall k, (k < J')%nat ->
  copies J' h (h k) * market_shares (split_market J' h m) (split_agents h a) safe' (fun k => delta (h k)) k =
  market_shares m a safe (fun j => delta j + dilution m j (copies J' h j)) (h k).
Proof.
  intros V C Q k Hk. assert (P := copies_pos J' h (h k) k Hk eq_refl).
  assert (D := copies_divide (mJ m) J' h C Q).
  assert (E := shares_split m J' h _ V D a safe safe' (fun j => delta j + dilution m j (copies J' h j)) k Hk). cbn beta in E.
  replace (market_shares m a safe (fun j => delta j + dilution m j (copies J' h j)) (h k)) with
    (copies J' h (h k) * (/ copies J' h (h k) * market_shares m a safe (fun j => delta j + dilution m j (copies J' h j)) (h k))) by (field; lra).
  f_equal. rewrite <- E. unfold market_shares. apply sumn_ext. intros i _. f_equal.
  assert (X : forall l, (l < J')%nat -> delta (h l) = split_delta m h (fun k => / copies J' h (h k)) (fun j => delta j + dilution m j (copies J' h j)) l).
  { intros l Hl. unfold split_delta, dilution. rewrite (ln_Rinv _ (copies_pos J' h (h l) l Hl eq_refl)). ring. }
  destruct (safe_is_exact (split_market J' h m) full_choice (fun k => delta (h k)) (amu (split_agents h a) i) (split_valid m J' h _ V D)) as [A1 _].
  destruct (safe_is_exact (split_market J' h m) full_choice (split_delta m h (fun k => / copies J' h (h k)) (fun j => delta j + dilution m j (copies J' h j)))
    (amu (split_agents h a) i) (split_valid m J' h _ V D)) as [A2 _].
  assert (U : fst (probabilities_linear (split_market J' h m) full_choice false (fun k => delta (h k)) (amu (split_agents h a) i)) k =
    fst (probabilities_linear (split_market J' h m) full_choice false (split_delta m h (fun k => / copies J' h (h k)) (fun j => delta j + dilution m j (copies J' h j))) (amu (split_agents h a) i)) k).
  { unfold probabilities_linear.
    match goal with |- fst (finish_probabilities ?q ?c ?r ?n ?e) k = fst (finish_probabilities _ _ _ _ ?e') k => apply (proj1 (finish_ext q c r n e e' ltac:(intros l Hl; cbn beta; unfold scaled_utilities; rewrite <- (X l Hl); reflexivity))) end.
    exact Hk. }
  destruct safe'; rewrite ?(A1 k Hk), ?(A2 k Hk); exact U.
Qed.
