(** What changes in costs do to equilibrium prices with plain logit demand. *)
From Coq Require Import Reals ZArith Lra Lia List Bool Arith.
From Verif Require Import Base FltModel IterModel DemandModel DemandSpec DemandProofs DemandElim SupplyModel SupplySpec SupplyProofs
  WelfareModel WelfareProofs PostModel ConvModel EquilModel EquilSpec EquilProofs EquilMarket TaxSpec TaxProofs.
Local Open Scope R_scope.

Section Market.
Variables (M : full_market) (a : R) (before after : nat -> R) (ids : list Z) (p q : nat -> R).
Hypothesis L : plain_logit M a.
Notation J := (mJ (fm M)).
Hypothesis H : forall k, (k < J)%nat -> before k <= after k.
Hypothesis P : bertrand J (firm_ownership ids) before (shares_at M) p.
Hypothesis Q : bertrand J (firm_ownership ids) after (shares_at M) q.
Notation E := (at_cost M before).
Notation A := (at_cost M after).
Notation m := (margins before p).
Notation n := (margins after q).
Notation Wt := (sumn (fI M) (fw M)).
Let d (k : nat) : R := after k - before k.
Let E' := dearer a E d.
Let A0 : 0 < a := pl_dislike M a L.
Let HE := at_cost_pos M before.
Let F : fixed J (owner ids) E a m := proj1 (bertrand_iff_fixed M a L before ids p) P.
Let FA : fixed J (owner ids) A a n := proj1 (bertrand_iff_fixed M a L after ids q) Q.

Lemma d_nonneg k : (k < J)%nat -> 0 <= d k.
Proof. intros Hk. specialize (H k Hk). unfold d. lra. Qed.

Lemma at_cost_after k : (k < J)%nat -> A k = E' k.
Proof.
  intros Hk. unfold E', dearer, at_cost. rewrite <- exp_plus. f_equal. rewrite (plain_delta M a L after before k Hk).
  unfold d. ring.
Qed.

Lemma weights_after x : all_weights J A a x = all_weights J E' a x.
Proof. unfold all_weights. f_equal. apply sumn_ext. intros k Hk. unfold weight_of. rewrite at_cost_after by assumption. reflexivity. Qed.

Lemma share_after x k : (k < J)%nat -> share_at J A a x k = share_at J E' a x k.
Proof. intros Hk. unfold share_at, weight_of. rewrite weights_after, at_cost_after by assumption. reflexivity. Qed.

Lemma fixed_after : fixed J (owner ids) E' a n.
Proof.
  intros j Hj. rewrite <- (FA j Hj). unfold next, firm_margin. f_equal. apply sumn_ext. intros k Hk.
  rewrite share_after by assumption. reflexivity.
Qed.

Lemma inside_falls : sumn J (shares_at M q) <= sumn J (shares_at M p).
Proof.
  rewrite (sumn_ext J (shares_at M q) _ (fun j Hj => plain_shares M a L after q j Hj)).
  rewrite (sumn_ext J (shares_at M p) _ (fun j Hj => plain_shares M a L before p j Hj)).
  rewrite !sumn_scal_r. apply Rmult_le_compat_r; [left; apply (pl_weights M a L)|].
  change (sumn J (share_at J A a n) <= sumn J (share_at J E a m)).
  rewrite (shares_sum J E a HE), (shares_sum J A a (at_cost_pos M after)), weights_after.
  assert (W := TaxProofs.weights_fall J (owner ids) a E d m n A0 HE d_nonneg F fixed_after).
  assert (W1 := weights_ge J A a (at_cost_pos M after) n). rewrite weights_after in W1.
  apply Rplus_le_compat_l. apply Ropp_le_contravar. apply Rinv_le_contravar; [lra|exact W].
Qed.

Lemma surplus_falls : eps_scale (fm M) = 1 -> (0 < J)%nat ->
  consumer_surplus M (fun _ => None) None q <= consumer_surplus M (fun _ => None) None p.
Proof.
  intros EPS HJ.
  assert (X : forall x costs, consumer_surplus M (fun _ => None) None x
     = ln (all_weights J (at_cost M costs) a (margins costs x)) / a * Wt).
  { intros x costs. unfold consumer_surplus. rewrite <- sumn_scal. apply sumn_ext. intros i Hi. f_equal.
    unfold individual_surplus. rewrite (plain_derivatives M a L (var0 M) i 0 HJ), Ropp_involutive. f_equal.
    assert (G := surplus_numerator_exact (fm M) None None (update_delta M x) (update_mu M x i) (pl_valid M a L)).
    cbn [option_map] in G. rewrite G.
    rewrite surplus_weights_plain by apply (pl_nests M a L). f_equal. unfold all_weights. f_equal. apply sumn_ext. intros j Hj.
    unfold included. cbn. rewrite (plain_mu M a L), Rplus_0_r. unfold weight_of, at_cost, margins. rewrite <- exp_plus. f_equal.
    assert (D := plain_delta M a L x costs j Hj). rewrite EPS in D. unfold Rdiv in D. rewrite Rinv_1, !Rmult_1_r in D.
    rewrite EPS. unfold Rdiv. rewrite Rinv_1, Rmult_1_r. exact D. }
  rewrite (X q after), (X p before). apply Rmult_le_compat_r; [left; apply (pl_weights M a L)|].
  unfold Rdiv. apply Rmult_le_compat_r; [left; apply Rinv_0_lt_compat; exact A0|].
  rewrite weights_after.
  assert (W := TaxProofs.weights_fall J (owner ids) a E d m n A0 HE d_nonneg F fixed_after). fold E' in W.
  assert (W1 := weights_ge J A a (at_cost_pos M after) n). rewrite weights_after in W1.
  destruct (Rle_lt_or_eq_dec _ _ W) as [LT|EQ]; [left; apply ln_increasing; lra|rewrite EQ; apply Rle_refl].
Qed.

Lemma rivals j : (j < J)%nat -> firm_unaffected J ids before after j ->
  p j <= q j /\ shares_at M p j <= shares_at M q j /\
  profits p (shares_at M p) before j <= profits q (shares_at M q) after j.
Proof.
  intros Hj U.
  assert (D : forall k, (k < J)%nat -> owner ids k = owner ids j -> d k = 0).
  { intros k Hk S. unfold d. rewrite (U k Hk S). ring. }
  assert (R := unaffected_rise J (owner ids) a E d m n A0 HE d_nonneg F fixed_after j Hj D).
  assert (S := unaffected_share J (owner ids) a E d m n A0 HE d_nonneg F fixed_after j Hj D).
  assert (B : after j = before j) by (apply (U j Hj eq_refl)).
  destruct (fixed_share J (owner ids) E a A0 HE m j F Hj) as [Pm _].
  assert (KS : shares_at M p j <= shares_at M q j).
  { rewrite (plain_shares M a L before p j Hj), (plain_shares M a L after q j Hj), share_after by assumption.
    apply Rmult_le_compat_r; [left; apply (pl_weights M a L)|assumption]. }
  assert (0 < shares_at M p j).
  { rewrite (plain_shares M a L before) by assumption. apply Rmult_lt_0_compat; [apply share_pos; [exact HE|assumption]|apply (pl_weights M a L)]. }
  unfold margins in R, Pm. split; [lra|]. split; [assumption|]. unfold profits. apply Rmult_le_compat; lra.
Qed.

(** A firm's profits are its markup above that of a firm without market share, per consumer. *)
Lemma firm_profits costs x j : (j < J)%nat -> bertrand J (firm_ownership ids) costs (shares_at M) x ->
  firm_sum J ids j (profits x (shares_at M x) costs) = (x j - costs j - / a) * Wt.
Proof using L.
  intros Hj B. assert (G := proj1 (bertrand_iff_fixed M a L costs ids x) B).
  assert (N := G j Hj). unfold next in N.
  transitivity (firm_margin J (owner ids) (at_cost M costs) a (margins costs x) j * Wt).
  - unfold firm_sum, firm_margin. rewrite <- sumn_scal_r. apply sumn_ext. intros k Hk. unfold same, owner.
    destruct (Z.eqb (nth k ids 0%Z) (nth j ids 0%Z)); [|ring]. unfold profits.
    rewrite (plain_shares M a L costs x k Hk). unfold margins. ring.
  - f_equal. change (x j - costs j) with (margins costs x j). rewrite <- N. ring.
Qed.

Lemma own_firm j : (j < J)%nat -> only_firm_affected J ids before after j ->
  (forall k, (k < J)%nat -> owner ids k = owner ids j -> q k - p k <= after k - before k /\
     ((forall l, (l < J)%nat -> owner ids l = owner ids j -> after l - before l <= after k - before k) ->
      p k <= q k /\ (before k < after k -> p k < q k))) /\
  firm_sum J ids j (profits q (shares_at M q) after) <= firm_sum J ids j (profits p (shares_at M p) before).
Proof.
  intros Hj U.
  assert (D : forall k, (k < J)%nat -> owner ids k <> owner ids j -> d k = 0).
  { intros k Hk S. unfold d. rewrite (U k Hk S). ring. }
  assert (R := affected_falls J (owner ids) a E d m n A0 HE d_nonneg F fixed_after j Hj D).
  split.
  - intros k Hk S.
    assert (Cm := fixed_common J (owner ids) E a m j F Hj k Hk S).
    assert (Cn := fixed_common J (owner ids) E' a n j fixed_after Hj k Hk S).
    split; [unfold margins in R, Cm, Cn; lra|]. intros B.
    destruct (largest_rises J (owner ids) a E d m n A0 HE d_nonneg F fixed_after j k Hj Hk S) as [K1 K2].
    + intros l Hl Sl. unfold d. apply B; assumption.
    + unfold d, margins in *. split; [lra|]. intros G. assert (0 < after k - before k) as K by lra. specialize (K2 K). lra.
  - rewrite !firm_profits by assumption. apply Rmult_le_compat_r; [left; apply (pl_weights M a L)|].
    unfold margins in R. lra.
Qed.

Lemma everyone t : (forall k, (k < J)%nat -> after k = before k + t) -> forall j, (j < J)%nat ->
  p j <= q j <= p j + t /\ (0 < t -> p j < q j) /\
  firm_sum J ids j (profits q (shares_at M q) after) <= firm_sum J ids j (profits p (shares_at M p) before).
Proof.
  intros Ht j Hj. destruct (common_rise J (owner ids) a E d m n A0 HE d_nonneg F fixed_after t) with (j := j) as [X [Y Z]].
  - intros k Hk. unfold d. rewrite (Ht k Hk). ring.
  - assumption.
  - rewrite !firm_profits by assumption. assert (B := Ht j Hj). unfold margins in X, Y, Z.
    split; [lra|]. split; [intros K; specialize (Z K); lra|].
    apply Rmult_le_compat_r; [left; apply (pl_weights M a L)|]. lra.
Qed.
End Market.
