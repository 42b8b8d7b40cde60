(** Proofs about Nash equilibria in prices. *)
From Coq Require Import Reals ZArith Lra Lia List Bool Arith.
From Verif Require Import Base FltModel IterModel DemandModel DemandSpec DemandProofs DemandDeriv DemandElim SupplyModel SupplySpec SupplyProofs
  WelfareModel WelfareProofs PostModel ConvModel EquilModel EquilSpec EquilProofs EquilMarket EquilMerger NashSpec.
Local Open Scope R_scope.

(** ** Best replies, in terms of markups *)
Lemma below_exp_strict t : t <> 1 -> t * exp (- t) < exp (- 1).
Proof.
  intros N. assert (H := exp_ineq1 (t - 1) ltac:(lra)).
  replace (exp (- t)) with (exp (- 1) * / exp (t - 1)).
  2: { rewrite <- exp_Ropp, <- exp_plus. f_equal. lra. }
  assert (P := exp_pos (t - 1)). assert (Q := exp_pos (- 1)).
  apply Rmult_lt_reg_r with (exp (t - 1)); [exact P|].
  replace (t * (exp (- 1) * / exp (t - 1)) * exp (t - 1)) with (t * exp (- 1)) by (field; lra).
  nra.
Qed.

Section Replies.
Variables (J : nat) (firm : nat -> Z) (E : nat -> R) (a : R).
Hypothesis Ha : 0 < a.
Hypothesis HE : forall k, (k < J)%nat -> 0 < E k.
Notation margin := (firm_margin J firm E a).
Notation rest := (rest_weight J firm E a).
Notation common := (common_weight J firm E a).
Notation nxt := (next J firm E a).

Lemma margin_bound_strict m j : (exists k, (k < J)%nat /\ firm k = firm j /\ m k <> nxt m j) -> a * (margin m j * rest m j) < common (nxt m j) j.
Proof.
  intros [k0 [Hk0 [S0 N0]]].
  assert (T := margin_times J firm E a HE m j). rewrite (weights_split J firm E a m j) in T.
  assert (Eq : margin m j * rest m j = sumn J (fun k => same firm k j * (weight_of E a m k * (m k - margin m j)))).
  { transitivity (sumn J (fun k => same firm k j * (weight_of E a m k * m k)) - margin m j * own_weight J firm E a m j); [lra|].
    unfold own_weight. rewrite <- sumn_scal, <- sumn_minus. apply sumn_ext. intros; ring. }
  rewrite Eq, <- sumn_scal. unfold common_weight.
  set (phi := margin m j). assert (X : forall k, (k < J)%nat -> let d := E k * exp (- (a * (/ a + phi))) - a * (weight_of E a m k * (m k - phi)) in
    0 <= d /\ (m k <> nxt m j -> 0 < d)).
  { intros k Hk. cbv zeta. unfold weight_of. assert (P := HE k Hk). assert (Q := exp_pos (- (a * phi))).
    replace (exp (- (a * m k))) with (exp (- (a * (m k - phi))) * exp (- (a * phi))) by (rewrite <- exp_plus; f_equal; ring).
    replace (exp (- (a * (/ a + phi)))) with (exp (- 1) * exp (- (a * phi))).
    2: { rewrite <- exp_plus. f_equal. field. lra. }
    replace (E k * (exp (- 1) * exp (- (a * phi))) - a * (E k * (exp (- (a * (m k - phi))) * exp (- (a * phi))) * (m k - phi)))
      with (E k * exp (- (a * phi)) * (exp (- 1) - a * (m k - phi) * exp (- (a * (m k - phi))))) by ring.
    assert (0 < E k * exp (- (a * phi))) by (apply Rmult_lt_0_compat; assumption). split.
    - apply Rmult_le_pos; [lra|]. assert (B := below_exp (a * (m k - phi))). lra.
    - intros D. apply Rmult_lt_0_compat; [assumption|]. assert (B := below_exp_strict (a * (m k - phi))).
      assert (a * (m k - phi) <> 1); [|specialize (B H0); lra]. intros C. apply D. unfold next. fold phi.
      apply Rmult_eq_reg_l with a; [|lra]. rewrite Rmult_plus_distr_l, Rinv_r by lra. lra. }
  apply sumn_lt.
  - intros k Hk. destruct (X k Hk) as [X1 _]. unfold next. fold phi. destruct (same_cases firm k j) as [[-> _]|[-> _]]; lra.
  - exists k0. split; [exact Hk0|]. destruct (X k0 Hk0) as [_ X1]. specialize (X1 N0). unfold next. fold phi.
    destruct (same_cases firm k0 j) as [[_ D]|[-> _]]; [congruence|lra].
Qed.

Lemma fixed_equality m j : fixed J firm E a m -> (j < J)%nat -> a * (margin m j * rest m j) = common (m j) j.
Proof.
  intros F Hj. assert (C := fixed_common J firm E a m j F Hj). assert (MC := margin_common J firm E a HE m j C).
  assert (OC := own_common J firm E a m j C). assert (S1 := weights_split J firm E a m j).
  assert (N : m j = / a + margin m j) by (symmetry; apply F; assumption). rewrite <- OC. rewrite S1 in MC.
  assert (a * m j = 1 + a * margin m j) by (rewrite N at 1; field; lra).
  replace (a * (margin m j * rest m j)) with (a * (margin m j * (own_weight J firm E a m j + rest m j)) - a * margin m j * own_weight J firm E a m j) by ring.
  rewrite MC. replace (a * (m j * own_weight J firm E a m j)) with (a * m j * own_weight J firm E a m j) by ring. rewrite H. ring.
Qed.

(** With the same markups of others, no choice of markups is better than those of the fixed point. *)
Lemma best_reply m n j : fixed J firm E a m -> (j < J)%nat -> (forall k, (k < J)%nat -> firm k <> firm j -> n k = m k) ->
  margin n j <= margin m j /\ (margin n j = margin m j -> forall k, (k < J)%nat -> n k = m k).
Proof.
  intros F Hj D. assert (Q := fixed_equality m j F Hj).
  assert (RR : rest n j = rest m j).
  { unfold rest_weight. f_equal. apply sumn_ext. intros k Hk. destruct (same_cases firm k j) as [[-> N]|[-> _]]; [|ring].
    unfold weight_of. rewrite (D k Hk N). reflexivity. }
  assert (RG := rest_ge J firm E a HE m j).
  assert (Nm : nxt m j = m j) by (apply F; exact Hj). assert (Nn : nxt n j = / a + margin n j) by reflexivity.
  assert (Nm' : m j = / a + margin m j) by (rewrite <- Nm; reflexivity).
  assert (LE : margin n j <= margin m j).
  { destruct (Rle_lt_dec (margin n j) (margin m j)) as [H|H]; [exact H|exfalso].
    assert (B := margin_bound J firm E a Ha HE n j). rewrite RR in B.
    assert (C : common (nxt n j) j <= common (m j) j) by (apply common_anti; [exact Ha|exact HE|exact Hj|lra]).
    assert (margin m j * rest m j < margin n j * rest m j) by (apply Rmult_lt_compat_r; lra).
    assert (a * (margin m j * rest m j) < a * (margin n j * rest m j)) by (apply Rmult_lt_compat_l; lra). lra. }
  split; [exact LE|]. intros Eq k Hk.
  destruct (Z.eq_dec (firm k) (firm j)) as [S1|S1]; [|apply D; assumption].
  destruct (Req_dec (n k) (m k)) as [H|H]; [exact H|exfalso].
  assert (C := fixed_common J firm E a m j F Hj k Hk S1).
  assert (B := margin_bound_strict n j ltac:(exists k; split; [exact Hk|split; [exact S1|rewrite Nn, Eq, <- Nm', <- C; exact H]])).
  rewrite RR, Nn, Eq, <- Nm' in B. lra.
Qed.
End Replies.

(** ** Prices *)
Section Market.
Variables (M : full_market) (a : R).
Hypothesis L : plain_logit M a.
Notation J := (mJ (fm M)).
Notation W := (sumn (fI M) (fw M)).
Variables (costs : nat -> R) (ids : list Z).
Notation E := (at_cost M costs).

Lemma profit_is_margin j x : firm_profit J ids costs (shares_at M) (nth j ids 0%Z) x = W * firm_margin J (owner ids) E a (margins costs x) j.
Proof.
  unfold firm_profit, firm_margin. rewrite <- sumn_scal. apply sumn_ext. intros k Hk. rewrite (plain_shares M a L costs x k Hk).
  unfold same, owner, margins. destruct (Z.eqb (nth k ids 0%Z) (nth j ids 0%Z)); ring.
Qed.

Lemma bertrand_strict_nash p : bertrand J (firm_ownership ids) costs (shares_at M) p -> strict_nash J ids costs (shares_at M) p.
Proof.
  intros P. apply (bertrand_iff_fixed M a L) in P.
  assert (G : forall f q, deviation J ids f p q ->
    firm_profit J ids costs (shares_at M) f q <= firm_profit J ids costs (shares_at M) f p /\
    (firm_profit J ids costs (shares_at M) f q = firm_profit J ids costs (shares_at M) f p -> forall k, (k < J)%nat -> q k = p k)).
  { intros f q D.
    destruct (existsb (fun k => Z.eqb (nth k ids 0%Z) f) (seq 0 J)) eqn:X.
    - apply existsb_exists in X. destruct X as [j [I X]]. apply in_seq in I. apply Z.eqb_eq in X. subst f.
      destruct (best_reply J (owner ids) E a (pl_dislike M a L) (at_cost_pos M costs) (margins costs p) (margins costs q) j P) as [B1 B2]; [lia| |].
      { intros k Hk N. unfold margins. rewrite (D k Hk N). reflexivity. }
      rewrite !profit_is_margin. assert (Wp := pl_weights M a L). split.
      + apply Rmult_le_compat_l; [lra|exact B1].
      + intros Eq k Hk. apply Rmult_eq_reg_l in Eq; [|lra]. specialize (B2 Eq k Hk). unfold margins in B2. lra.
    - assert (Y : forall k, (k < J)%nat -> nth k ids 0%Z <> f).
      { intros k Hk C. assert (existsb (fun k => Z.eqb (nth k ids 0%Z) f) (seq 0 J) = true); [|congruence].
        apply existsb_exists. exists k. split; [apply in_seq; lia|apply Z.eqb_eq; exact C]. }
      split; [|intros _ k Hk; apply D; auto]. right. unfold firm_profit. apply sumn_ext. intros k Hk.
      destruct (Z.eqb_spec (nth k ids 0%Z) f) as [C|_]; [destruct (Y k Hk C)|reflexivity]. }
  split; [intros f q D; apply (G f q D)|intros f q D; apply (G f q D)].
Qed.
End Market.

(** A Nash equilibrium is stationary, whatever demand. *)
Lemma nash_bertrand M ids costs p : valid_market (fm M) -> good_columns M p ->
  nash (mJ (fm M)) ids costs (shares_at M) p -> bertrand (mJ (fm M)) (firm_ownership ids) costs (shares_at M) p.
Proof.
  intros V G Nh j Hj. set (J := mJ (fm M)) in *.
  set (g := fun t => weighted_profit J (firm_ownership ids) costs (shares_at M) (upd p j t) j).
  assert (EQ : forall t, g t = firm_profit J ids costs (shares_at M) (nth j ids 0%Z) (upd p j t)).
  { intros t. unfold g, weighted_profit, firm_profit. apply sumn_ext. intros k Hk. unfold firm_ownership. rewrite Z.eqb_sym.
    destruct (Z.eqb (nth k ids 0%Z) (nth j ids 0%Z)); ring. }
  assert (SM : g (p j) = firm_profit J ids costs (shares_at M) (nth j ids 0%Z) p).
  { rewrite EQ. unfold firm_profit. apply sumn_ext. intros k Hk. rewrite upd_same, shares_upd_same by assumption. reflexivity. }
  assert (HD : exists l, derivable_pt_lim g (p j) l).
  { eexists. apply (weighted_profit_derive J (firm_ownership ids) costs (shares_at M) p (shares_jacobian M p) j Hj).
    - intros k Hk. apply jacobian_is_derivative; assumption.
    - intros k Hk. apply shares_upd_same; assumption. }
  destruct HD as [l HD]. assert (l = 0); [|subst l; exact HD].
  assert (Z0 : derive_pt g (p j) (exist _ l HD) = 0).
  { apply (deriv_maximum g (p j - 1) (p j + 1)); [lra|lra|]. intros x _ _. rewrite SM, EQ. apply Nh.
    intros k Hk N. unfold upd. destruct (Nat.eqb_spec k j) as [->|_]; [congruence|reflexivity]. }
  exact Z0.
Qed.

(** ** Mergers *)
Section Merger.
Variables (M : full_market) (a : R) (costs : nat -> R) (before after : list Z) (p q : nat -> R).
Hypothesis L : plain_logit M a.
Notation J := (mJ (fm M)).
Notation E := (at_cost M costs).
Hypothesis G : merger J before after.
Hypothesis B : bertrand J (firm_ownership before) costs (shares_at M) p.
Hypothesis B' : bertrand J (firm_ownership after) costs (shares_at M) q.

Lemma joint_profits f :
  firm_profit J after costs (shares_at M) f p <= firm_profit J after costs (shares_at M) f q /\
  (forall j k, (j < J)%nat -> (k < J)%nat -> nth j after 0%Z = f -> nth k after 0%Z = f -> nth j before 0%Z <> nth k before 0%Z ->
   firm_profit J after costs (shares_at M) f p < firm_profit J after costs (shares_at M) f q).
Proof.
  set (r := fun k => if Z.eqb (nth k after 0%Z) f then p k else q k).
  assert (D : deviation J after f q r).
  { intros k Hk N. unfold r. destruct (Z.eqb_spec (nth k after 0%Z) f); [contradiction|reflexivity]. }
  destruct (bertrand_strict_nash M a L costs after q B') as [N1 N2]. specialize (N1 f r D). specialize (N2 f r D).
  assert (H : firm_profit J after costs (shares_at M) f p <= firm_profit J after costs (shares_at M) f r).
  { unfold firm_profit. apply sumn_le. intros k Hk. destruct (Z.eqb (nth k after 0%Z) f) eqn:Ek; [|lra].
    assert (Rk : r k = p k) by (unfold r; rewrite Ek; reflexivity). rewrite Rk.
    assert (Mg := equilibrium_margin M a L costs before p k B Hk). assert (0 < / a) by (apply Rinv_0_lt_compat, (pl_dislike M a L)).
    apply Rmult_le_compat_l; [lra|]. rewrite !(plain_shares M a L costs _ k Hk).
    apply Rmult_le_compat_r; [left; exact (pl_weights M a L)|]. unfold share_at.
    assert (Wk : weight_of E a (margins costs r) k = weight_of E a (margins costs p) k) by (unfold weight_of, margins; rewrite Rk; reflexivity).
    rewrite Wk. apply div_anti; [left; apply weight_pos with (J := J); [exact (at_cost_pos M costs)|exact Hk]|].
    split; [assert (Q := weights_ge J E a (at_cost_pos M costs) (margins costs r)); lra|].
    unfold all_weights. apply Rplus_le_compat_l. apply sumn_le. intros l Hl.
    apply (weight_anti J E a (pl_dislike M a L) (at_cost_pos M costs)); [exact Hl|]. unfold margins, r.
    assert (U := merger_rises M a costs before after p q L G B B' l Hl). destruct (Z.eqb (nth l after 0%Z) f); lra. }
  split; [lra|]. intros j k Hj Hk Fj Fk N.
  destruct (Rle_lt_or_eq_dec _ _ N1) as [S1|S1]; [lra|]. exfalso. specialize (N2 S1 j Hj).
  unfold r in N2. rewrite Fj, Z.eqb_refl in N2.
  assert (U := merger_rises_strictly M a costs before after p q L G B B' j k Hj Hk (eq_trans Fj (eq_sym Fk)) N). lra.
Qed.
End Merger.
