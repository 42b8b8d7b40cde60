(** What a merger does to equilibrium prices with plain logit demand. *)
From Coq Require Import Reals ZArith Lra Lia List Bool Arith.
From Verif Require Import Base FltModel IterModel DemandModel DemandSpec DemandProofs DemandElim SupplyModel SupplySpec SupplyProofs
  WelfareModel WelfareProofs PostModel ConvModel ConvRun EquilModel EquilSpec EquilProofs EquilLimits EquilGlobal EquilRun EquilMarket.
Local Open Scope R_scope.

Section Merger.
Variables (M : full_market) (a : R) (costs : nat -> R) (ids ids' : list Z) (p p' : nat -> R).
Hypothesis L : plain_logit M a.
Notation J := (mJ (fm M)).
Hypothesis G : merger J ids ids'.
Hypothesis B : bertrand J (firm_ownership ids) costs (shares_at M) p.
Hypothesis B' : bertrand J (firm_ownership ids') costs (shares_at M) p'.
Notation T' := (price_contraction M (firm_ownership ids') costs).
Notation E := (at_cost M costs).
Let A0 : 0 < a := pl_dislike M a L.
Let HE := at_cost_pos M costs.
Let F : fixed J (owner ids) E a (margins costs p) := proj1 (bertrand_iff_fixed M a L costs ids p) B.
Let F' : fixed J (owner ids') E a (margins costs p') := proj1 (bertrand_iff_fixed M a L costs ids' p') B'.

Lemma premerger_above j : (j < J)%nat -> costs j <= p j.
Proof.
  intros Hj. assert (X := equilibrium_margin M a L costs ids p j B Hj).
  assert (0 < / a) by (apply Rinv_0_lt_compat; exact A0). lra.
Qed.

Lemma premerger_rises j : (j < J)%nat -> p j <= T' p j.
Proof.
  intros Hj. rewrite (contraction_is_next M a L costs ids' p j Hj).
  assert (X := merger_below J (owner ids) (owner ids') E a A0 HE G (margins costs p) F j Hj). unfold margins at 1 in X. lra.
Qed.

Lemma merger_rises j : (j < J)%nat -> p j <= p' j.
Proof. intros Hj. apply (rising_below M a L costs ids' p' p B' premerger_above premerger_rises 0 j Hj). Qed.

Lemma merger_rises_strictly j k : (j < J)%nat -> (k < J)%nat ->
  owner ids' j = owner ids' k -> owner ids j <> owner ids k -> p j < p' j.
Proof.
  intros Hj Hk S N. apply Rlt_le_trans with (T' p j).
  - rewrite (contraction_is_next M a L costs ids' p j Hj).
    assert (X := merger_strict J (owner ids) (owner ids') E a A0 HE G (margins costs p) j k F Hj Hk S N).
    unfold margins at 1 in X. lra.
  - apply (rising_below M a L costs ids' p' p B' premerger_above premerger_rises 1 j Hj).
Qed.

Lemma merger_iterates n j : (j < J)%nat ->
  p j <= Nat.iter n T' p j /\ Nat.iter n T' p j <= Nat.iter (S n) T' p j /\ Nat.iter n T' p j <= p' j.
Proof.
  intros Hj. destruct (rising_below M a L costs ids' p' p B' premerger_above premerger_rises n j Hj) as [X Y].
  split; [assumption|]. split; [|assumption]. apply (iterates_rise M a L costs ids' p premerger_above premerger_rises n j Hj).
Qed.

Lemma margin_rises k : (k < J)%nat -> margins costs p k <= margins costs p' k.
Proof. intros Hk. unfold margins. assert (X := merger_rises k Hk). lra. Qed.

Lemma weights_fall : all_weights J E a (margins costs p') <= all_weights J E a (margins costs p).
Proof.
  unfold all_weights. apply Rplus_le_compat_l. apply sumn_le. intros k Hk.
  apply (weight_anti J E a A0 HE); [assumption|apply margin_rises; assumption].
Qed.

Lemma merger_outside : sumn J (shares_at M p') <= sumn J (shares_at M p).
Proof.
  rewrite (sumn_ext J (shares_at M p') _ (fun j Hj => plain_shares M a L costs p' j Hj)).
  rewrite (sumn_ext J (shares_at M p) _ (fun j Hj => plain_shares M a L costs p j Hj)).
  rewrite !sumn_scal_r. apply Rmult_le_compat_r; [left; apply (pl_weights M a L)|].
  change (sumn J (share_at J E a (margins costs p')) <= sumn J (share_at J E a (margins costs p))).
  rewrite !(shares_sum J E a HE). assert (W := weights_fall).
  assert (W1 := weights_ge J E a HE (margins costs p')).
  apply Rplus_le_compat_l. apply Ropp_le_contravar. apply Rinv_le_contravar; lra.
Qed.

Lemma merger_outsiders j : (j < J)%nat -> (forall k, (k < J)%nat -> owner ids' j = owner ids' k -> owner ids j = owner ids k) ->
  shares_at M p j <= shares_at M p' j /\
  (p j - costs j) * shares_at M p j <= (p' j - costs j) * shares_at M p' j.
Proof.
  intros Hj O.
  assert (S := share_determined J (owner ids) E a A0 HE (margins costs p) j F Hj).
  assert (S' := share_determined J (owner ids') E a A0 HE (margins costs p') j F' Hj).
  assert (C : sumn J (fun k => same (owner ids') k j * E k) = sumn J (fun k => same (owner ids) k j * E k)).
  { apply sumn_ext. intros k Hk. f_equal.
    destruct (same_cases (owner ids') k j) as [[-> N]|[-> Y]]; destruct (same_cases (owner ids) k j) as [[-> N2]|[-> Y2]]; try reflexivity.
    - exfalso. apply N. apply (G k j Hk Hj). assumption.
    - exfalso. apply N2. symmetry. apply O; [assumption|symmetry; assumption]. }
  rewrite C in S'. set (c := sumn J (fun k => same (owner ids) k j * E k)) in *.
  assert (Pc : 0 < c).
  { apply sumn_pos.
    - intros k Hk. assert (X := HE k Hk). destruct (same_cases (owner ids) k j) as [[-> _]|[-> _]]; lra.
    - exists j. split; [assumption|]. unfold same. rewrite Z.eqb_refl. assert (X := HE j Hj). lra. }
  destruct (fixed_share J (owner ids) E a A0 HE _ j F Hj) as [P1 _].
  assert (R := margin_rises j Hj).
  assert (K : share_at J E a (margins costs p) j <= share_at J E a (margins costs p') j).
  { apply Rmult_le_reg_r with c; [assumption|]. rewrite S, S'. apply Rmult_le_compat_l; [left; apply HE; assumption|].
    apply Rplus_le_compat_l. apply Ropp_le_contravar. assert (A := A0).
    apply Rinv_le_contravar; [apply Rmult_lt_0_compat; assumption|apply Rmult_le_compat_l; lra]. }
  assert (KS : shares_at M p j <= shares_at M p' j).
  { rewrite !(plain_shares M a L costs) by assumption. apply Rmult_le_compat_r; [left; apply (pl_weights M a L)|assumption]. }
  split; [assumption|]. assert (0 < shares_at M p j).
  { rewrite (plain_shares M a L costs) by assumption. apply Rmult_lt_0_compat; [apply share_pos; [exact HE|assumption]|apply (pl_weights M a L)]. }
  unfold margins in *. apply Rmult_le_compat; lra.
Qed.

Lemma merger_surplus : (0 < J)%nat ->
  consumer_surplus M (fun _ => None) None p' <= consumer_surplus M (fun _ => None) None p.
Proof.
  intros HJ.
  assert (X : forall x, consumer_surplus M (fun _ => None) None x
     = ln (1 + sumn J (fun j => exp (update_delta M x j))) / a * sumn (fI M) (fw M)).
  { intros x. unfold consumer_surplus. rewrite <- sumn_scal. apply sumn_ext. intros i Hi. f_equal.
    unfold individual_surplus. rewrite (plain_derivatives M a L (var0 M) i 0 HJ), Ropp_involutive. f_equal.
    assert (Q := surplus_numerator_exact (fm M) None None (update_delta M x) (update_mu M x i) (pl_valid M a L)).
    cbn [option_map] in Q. rewrite Q.
    rewrite surplus_weights_plain by apply (pl_nests M a L). f_equal. f_equal. apply sumn_ext. intros j Hj.
    unfold included. cbn. rewrite (plain_mu M a L), Rplus_0_r. reflexivity. }
  rewrite !X. apply Rmult_le_compat_r; [left; apply (pl_weights M a L)|].
  unfold Rdiv. apply Rmult_le_compat_r; [left; apply Rinv_0_lt_compat; exact A0|].
  assert (Y : sumn J (fun j => exp (update_delta M p' j)) <= sumn J (fun j => exp (update_delta M p j))).
  { apply sumn_le. intros j Hj. apply exp_le. assert (D := plain_delta M a L p' p j Hj). assert (e0 := eps_pos M a L).
    apply Rmult_le_reg_r with (/ eps_scale (fm M)); [apply Rinv_0_lt_compat; assumption|].
    unfold Rdiv in D. rewrite D. assert (Q := merger_rises j Hj). assert (0 <= a * (p' j - p j)) by (apply Rmult_le_pos; [left; exact A0|lra]). lra. }
  assert (Z : 0 <= sumn J (fun j => exp (update_delta M p' j))) by (apply sumn_nonneg; intros; left; apply exp_pos).
  destruct (Rle_lt_or_eq_dec _ _ Y) as [LT|EQ]; [left; apply ln_increasing; lra|rewrite EQ; apply Rle_refl].
Qed.
End Merger.
