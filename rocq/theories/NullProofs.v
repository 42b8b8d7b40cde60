(** Proofs that nothing changes when nothing is changed. *)
From Coq Require Import Reals Lra Lia ZArith List Bool Arith.
From Verif Require Import Base FltModel IterModel DemandSpec DemandModel DemandProofs DemandShares SupplyModel SupplySpec SupplyProofs MarkupWitness WelfareModel
  WelfareSpec WelfareProofs SlopeProofs ConvModel ConvProofs ConvRun EndoModel NullModel NullSpec.
Import ListNotations.
Local Open Scope R_scope.

(** Only prices of products in the market matter. *)
Section Ext.
Context (M : full_market) (x y : nat -> R).
Hypothesis (V : valid_market (fm M)).
Hypothesis (E : forall k, (k < mJ (fm M))%nat -> x k = y k).

Lemma utility_same i k : (k < mJ (fm M))%nat ->
  utility (fm M) (update_delta M x) (update_mu M x i) k = utility (fm M) (update_delta M y) (update_mu M y i) k.
Proof.
  intros Hk. unfold utility, update_delta, update_mu, compute_mu. rewrite (E k Hk). reflexivity.
Qed.
Lemma probs_same i j : (j < mJ (fm M))%nat ->
  probs (fm M) (update_delta M x) (update_mu M x) i j = probs (fm M) (update_delta M y) (update_mu M y) i j.
Proof. intros Hj. unfold probs. apply probabilities_ext; try assumption. intros k Hk. apply utility_same. exact Hk. Qed.
Lemma conds_same i j : (j < mJ (fm M))%nat ->
  conds (fm M) (update_delta M x) (update_mu M x) i j = conds (fm M) (update_delta M y) (update_mu M y) i j.
Proof. intros Hj. apply (cond_ext (fm M) true); try assumption. intros k Hk. apply utility_same. exact Hk. Qed.
Lemma derivatives_same i j : (j < mJ (fm M))%nat -> utility_derivatives M false x i j = utility_derivatives M false y i j.
Proof. intros Hj. unfold utility_derivatives. rewrite (E j Hj). reflexivity. Qed.
Lemma shares_same j : (j < mJ (fm M))%nat -> shares_at M x j = shares_at M y j.
Proof. intros Hj. unfold shares_at. apply sumn_ext. intros i Hi. rewrite probs_same by exact Hj. reflexivity. Qed.
Lemma lamda_same j : (j < mJ (fm M))%nat -> lamda_at M x j = lamda_at M y j.
Proof.
  intros Hj. unfold lamda_at, capital_lamda.
  rewrite (sumn_ext (fI M) _ (fun i => probs (fm M) (update_delta M y) (update_mu M y) i j * utility_derivatives M false y i j * fw M i)); [reflexivity|].
  intros i Hi. rewrite probs_same, derivatives_same by exact Hj. reflexivity.
Qed.
Lemma gamma_same j k : (j < mJ (fm M))%nat -> (k < mJ (fm M))%nat -> gamma_at M x j k = gamma_at M y j k.
Proof.
  intros Hj Hk. unfold gamma_at, capital_gamma.
  rewrite (sumn_ext (fI M) _ (fun i => probs (fm M) (update_delta M y) (update_mu M y) i j * (fw M i * (probs (fm M) (update_delta M y) (update_mu M y) i k * utility_derivatives M false y i k)))).
  2:{ intros i Hi. rewrite !probs_same, derivatives_same by assumption. reflexivity. }
  rewrite (sumn_ext (fI M) (fun i => conds (fm M) (update_delta M x) (update_mu M x) i j * _) (fun i => conds (fm M) (update_delta M y) (update_mu M y) i j * (fw M i * (probs (fm M) (update_delta M y) (update_mu M y) i k * utility_derivatives M false y i k)))).
  2:{ intros i Hi. rewrite conds_same, probs_same, derivatives_same by assumption. reflexivity. }
  reflexivity.
Qed.
Lemma contraction_same o c c' j : (j < mJ (fm M))%nat -> (forall k, (k < mJ (fm M))%nat -> c k = c' k) ->
  price_contraction M o c x j = price_contraction M o c' y j.
Proof.
  intros Hj Hc. unfold price_contraction, zeta. rewrite (Hc j Hj), (lamda_same j Hj), (shares_same j Hj).
  rewrite (sumn_ext (mJ (fm M)) _ (fun k => o k j * gamma_at M y k j * (y k - c' k))); [reflexivity|].
  intros k Hk. rewrite gamma_same, (E k Hk), (Hc k Hk) by assumption. reflexivity.
Qed.
End Ext.

(** Routines. *)
Lemma vsub_self x : vfin x = true -> forall v, In v (vsub x x) -> v = Num 0.
Proof.
  unfold vsub, vfin. induction x as [|a x IH]; intros F v; [intros []|].
  cbn [forallb] in F. apply andb_prop in F. destruct F as [Fa Fx]. destruct a as [a| | |]; try discriminate.
  cbn [vzip]. intros [<-|Hin]; [cbn; f_equal; ring|]. exact (IH Fx v Hin).
Qed.
Lemma weighted_zero x r w : vfin x = true -> (forall v, In v r -> v = Num 0) ->
  match w with Some w => vfin w = true | None => True end -> forall v, In v (weight r w) -> v = Num 0.
Proof.
  intros Fx Z. destruct w as [w|]; [|intros _; exact Z]. intros Fw v. unfold weight, vfin in *. revert r Z.
  induction w as [|a w IH]; intros r Z Hin; [destruct Hin|]. destruct r as [|b r]; [destruct Hin|].
  cbn [forallb] in Fw. apply andb_prop in Fw. destruct Fw as [Fa Fw]. cbn [vzip] in Hin. destruct Hin as [<-|Hin].
  - destruct a as [a| | |]; try discriminate. rewrite (Z b (or_introl eq_refl)). cbn. f_equal. ring.
  - apply (IH Fw r); [|exact Hin]. intros u Hu. apply Z. right. exact Hu.
Qed.
Lemma weight_finite x w : vfin x = true -> match w with Some w => vfin w = true | None => True end -> vfin (weight x w) = true.
Proof.
  intros Fx. destruct w as [w|]; [|intros _; exact Fx]. unfold weight, vfin in *. revert x Fx.
  induction w as [|a w IH]; intros [|b x] Fx Fw; cbn [vzip forallb]; try reflexivity.
  cbn [forallb] in *. apply andb_prop in Fw. apply andb_prop in Fx. destruct Fw as [Fa Fw], Fx as [Fb Fx].
  rewrite (IH x Fx Fw). destruct a, b; try discriminate. reflexivity.
Qed.
Lemma settles t x w : sensible t -> vfin x = true -> match w with Some w => vfin w = true | None => True end ->
  termination_check t x (vsub x x) w = true.
Proof.
  intros [[a [Ea Ha]] [b [Eb Hb]] HN HZ] Fx Fw. unfold termination_check.
  rewrite (HZ _ (weighted_zero x _ w Fx (vsub_self x Fx) Fw)), Ea, Eb.
  destruct (HN _ (weight_finite x w Fx Fw)) as [v [-> Hv]].
  assert (0 <= b * v) by (apply Rmult_le_pos; assumption).
  cbn [fltb]. unfold rltb at 1. destruct (Rlt_dec 0 b); cbn [fadd fmul fltb]; unfold rltb;
    match goal with |- (if Rlt_dec ?a ?b then _ else _) = _ => destruct (Rlt_dec a b) as [|N] end; try reflexivity; exfalso; lra.
Qed.
Lemma simple_stays t n : sensible t -> (2 <= n)%nat -> stays (fun f x => simple_iterator f t n x).
Proof.
  intros T Hn f x w Hf Fx Fw. unfold simple_iterator. destruct n as [|n]; [lia|]. cbn [simple_loop]. unfold evaluate.
  rewrite Hf. cbn [fst snd]. unfold all_finite. rewrite Fx.
  assert (Fw' : match w with Some w => vfin w = true | None => True end) by (destruct w; [apply Fw|exact I]).
  assert (EF : match w with None => true | Some v => vfin v end = true) by (destruct w; [exact Fw'|reflexivity]).
  rewrite EF. cbn [negb andb]. rewrite (settles t x w T Fx Fw'), orb_true_r.
  eexists. split; [reflexivity|]. split; [reflexivity|]. cbn [o_converged]. apply Nat.ltb_lt. lia.
Qed.
Lemma squarem_stays t n scheme factor b : sensible t -> (2 <= n)%nat ->
  stays (fun f x => option_map q_out (squarem_iterator f t n scheme factor b x)).
Proof.
  intros T Hn f x w Hf Fx Fw. unfold squarem_iterator. destruct n as [|n]; [lia|]. cbn [squarem_loop]. unfold evaluate.
  rewrite Hf. cbn [fst snd]. unfold all_finite. rewrite Fx.
  assert (Fw' : match w with Some w => vfin w = true | None => True end) by (destruct w; [apply Fw|exact I]).
  assert (EF : match w with None => true | Some v => vfin v end = true) by (destruct w; [exact Fw'|reflexivity]).
  rewrite EF. cbn [negb andb]. rewrite (settles t x w T Fx Fw'), orb_true_r.
  eexists. split; [reflexivity|]. split; [reflexivity|]. cbn [o_converged q_out]. apply Nat.ltb_lt. lia.
Qed.
Lemma return_stays : stays (fun _ x => Some (return_iterator x)).
Proof. intros f x w _ _ _. eexists. split; [reflexivity|]. split; reflexivity. Qed.

(** Unchanged data. *)
Section Data.
Context (e : estimated).
Let M := e_market e.
Let J := mJ (fm M).
Hypothesis (V : valid_market (fm M)).
Hypothesis (D : data_columns M).

Lemma unchanged_delta j : update_delta M (var0 M) j = delta0 M j.
Proof.
  unfold update_delta. rewrite (sumn_ext (fK1 M) _ (fun _ => 0)); [rewrite sumn_zero; ring|]. intros k Hk. destruct (uses (fX1 M k)); ring.
Qed.
Lemma unchanged_mu i j : (j < J)%nat -> update_mu M (var0 M) i j = compute_mu M (X2_0 M) i j.
Proof.
  intros Hj. unfold update_mu, compute_mu. apply sumn_ext. intros k Hk. destruct (uses (fX2 M k)) eqn:U; [|reflexivity].
  rewrite (D j k Hj Hk U). reflexivity.
Qed.
Lemma unchanged_utility i k : (k < J)%nat ->
  utility (fm M) (update_delta M (var0 M)) (update_mu M (var0 M) i) k = utility (fm M) (delta0 M) (compute_mu M (X2_0 M) i) k.
Proof. intros Hk. unfold utility. rewrite unchanged_delta, unchanged_mu by exact Hk. reflexivity. Qed.

Lemma same_probabilities i j delta : (j < J)%nat ->
  probabilities_method e (Some (var0 M)) delta i j = probabilities_method e None delta i j.
Proof.
  intros Hj. unfold probabilities_method, probs. fold M. apply probabilities_ext; try assumption.
  intros k Hk. unfold utility. rewrite (unchanged_mu i k Hk).
  destruct delta as [d|]; [reflexivity|]. rewrite unchanged_delta. reflexivity.
Qed.
Lemma same_shares j delta : (j < J)%nat -> shares_method e (Some (var0 M)) delta j = shares_method e None delta j.
Proof. intros Hj. unfold shares_method. apply sumn_ext. intros i Hi. rewrite same_probabilities by exact Hj. reflexivity. Qed.
Lemma shares_at_prices p j : shares_method e (Some p) None j = shares_at M p j.
Proof. reflexivity. Qed.

Hypothesis (RP : reproduces e).
Lemma observed_shares j : (j < J)%nat -> shares_at M (var0 M) j = e_shares e j.
Proof. intros Hj. rewrite <- shares_at_prices, same_shares by exact Hj. apply RP. exact Hj. Qed.

Lemma observed_costs (S : supply) c j : (j < J)%nat -> update_costs S (e_shares e) c (shares_at M (var0 M)) j = c j.
Proof.
  intros Hj. unfold update_costs. rewrite (observed_shares j Hj). destruct (stype S).
  - rewrite (sumn_ext (sK3 S) _ (fun _ => 0)); [rewrite sumn_zero; ring|]. intros k Hk. destruct (uses (sX3 S k)); ring.
  - assert (HP : forall n, prodn n (fun k => if uses (sX3 S k) then exp (sgamma S k * (ev (sX3 S k) j (e_shares e j) - ev (sX3 S k) j (e_shares e j))) else 1) = 1).
    { induction n as [|n IH]; [reflexivity|]. cbn [prodn]. rewrite IH. destruct (uses (sX3 S n)); [|ring].
      replace (sgamma S n * (ev (sX3 S n) j (e_shares e j) - ev (sX3 S n) j (e_shares e j))) with 0 by ring. rewrite exp_0. ring. }
    rewrite HP. ring.
Qed.

Lemma contraction_at_observed solve o cc j :
  exact_solver J solve ->
  (forall j k, (j < J)%nat -> (k < J)%nat -> o j k = o k j) -> (forall j, (j < J)%nat -> o j j = 1) ->
  (forall j, (j < J)%nat -> lamda_at M (var0 M) j <> 0) ->
  snd (compute_costs solve M o (e_shares e)) = false -> (j < J)%nat ->
  endogenous_contraction cc M o (e_supply e) (e_shares e) (fst (compute_costs solve M o (e_shares e))) (ConvModel.column (flat J (var0 M))) j = var0 M j.
Proof.
  intros HS Sym Dg HL HB Hj. unfold endogenous_contraction.
  rewrite (contraction_same M (ConvModel.column (flat J (var0 M))) (var0 M) V (fun k Hk => column_flat J (var0 M) k Hk) o _ (fst (compute_costs solve M o (e_shares e))) j Hj).
  - apply (zeta_fixed_iff M o _ (var0 M) Sym Dg HL); [|exact Hj].
    intros k Hk. rewrite (observed_shares k Hk). apply (costs_markup_equation solve M o (e_shares e) HS HB k Hk).
  - intros k Hk. unfold costs_given. destruct cc; [reflexivity|]. fold M.
    transitivity (update_costs (e_supply e) (e_shares e) (fst (compute_costs solve M o (e_shares e))) (shares_at M (var0 M)) k);
      [|apply observed_costs; exact Hk].
    unfold update_costs.
    rewrite (shares_same M (ConvModel.column (flat J (var0 M))) (var0 M) V (fun k Hk => column_flat J (var0 M) k Hk) k Hk). reflexivity.
Qed.
End Data.

Lemma prices_unchanged solve iterate e cc firm ownership o :
  let M := e_market e in let J := mJ (fm M) in
  valid_market (fm M) -> data_columns M -> reproduces e -> stays iterate -> exact_solver J solve ->
  ownership_used e firm ownership = Some o -> ownership_used e None None = Some o ->
  (forall j k, (j < J)%nat -> (k < J)%nat -> o j k = o k j) -> (forall j, (j < J)%nat -> o j j = 1) ->
  (forall j, (j < J)%nat -> lamda_at M (var0 M) j <> 0) ->
  snd (compute_costs solve M o (e_shares e)) = false ->
  exists out, prices_method solve iterate e cc firm ownership None None = Some out /\ o_x out = flat J (var0 M) /\ o_converged out = true.
Proof.
  intros M J V D RP ST HS EO E0 Sym Dg HL HB. unfold prices_method, costs_or_default, costs_method. rewrite EO, E0. cbn [option_map].
  destruct (compute_costs solve (e_market e) o (e_shares e)) as [c bad] eqn:EC.
  apply (ST _ _ (Some (flat J (price_weights M (ConvModel.column (flat J (var0 M))))))).
  - intros log i n. unfold prices_function. fold M J. rewrite flat_finite. f_equal. apply flat_ext. intros j Hj.
    assert (EC' : c = fst (compute_costs solve M o (e_shares e))) by (unfold M; rewrite EC; reflexivity). rewrite EC'.
    apply contraction_at_observed; assumption.
  - apply flat_finite.
  - split; [apply flat_finite|]. unfold flat. rewrite !map_length. reflexivity.
Qed.

Lemma delta_unchanged iterate e safe bounds :
  let M := e_market e in let J := mJ (fm M) in
  valid_market (fm M) -> valid_agents (agents_with M (compute_mu M (X2_0 M))) ->
  reproduces e -> stays iterate -> (forall j, (j < J)%nat -> 0 < e_shares e j) ->
  match fst bounds with Some lb => 0 < lb /\ forall j, (j < J)%nat -> lb < e_shares e j | None => True end ->
  match snd bounds with Some ub => 0 < ub /\ forall j, (j < J)%nat -> e_shares e j < ub | None => True end ->
  exists out, delta_method iterate e safe bounds = Some out /\ o_x out = flat J (delta0 M) /\ o_converged out = true.
Proof.
  intros M J V VA RP ST HP HL HU. unfold delta_method. fold M J.
  apply (ST _ _ None); [|apply flat_finite|exact I].
  intros log i n. unfold delta_function. fold J. rewrite flat_finite. f_equal. apply flat_ext. intros j Hj.
  rewrite (contraction_ext (fm M) _ safe bounds (e_shares e) V _ (delta0 M) j Hj (fun k Hk => column_flat J (delta0 M) k Hk)).
  apply (fixed_point_matches (fm M) _ safe bounds (e_shares e) (delta0 M) V VA HP HL HU); [|exact Hj].
  intros k Hk. rewrite <- (RP k Hk). unfold market_shares, probs. cbn [aI aw amu agents_with]. fold M. apply sumn_ext. intros q Hq.
  rewrite !full_choice_with, !probabilities_nested by assumption. reflexivity.
Qed.

(** Arguments that are what the data say. *)
Lemma surplus_unchanged e avail mask i :
  valid_market (fm (e_market e)) -> data_columns (e_market e) ->
  let av := fun i => option_map (fun b j => indR (b j)) (avail i) in
  surplus_method e av mask (Some (var0 (e_market e))) i = surplus_method e av mask None i.
Proof.
  intros V D av. unfold surplus_method, av. rewrite !surplus_numerator_exact by exact V. f_equal. f_equal. f_equal.
  apply surplus_weights_ext. intros k Hk. rewrite (unchanged_delta e), (unchanged_mu e D i k Hk). reflexivity.
Qed.

Lemma approximate_unchanged solve e firm ownership o : 
  ownership_used e firm ownership = Some o -> ownership_used e None None = Some o ->
  exists p, approximate_prices_method solve e firm ownership None = Some p /\ forall j, p j = var0 (e_market e) j.
Proof.
  intros EO E0. unfold approximate_prices_method, costs_or_default, costs_method. rewrite EO, E0. cbn [option_map].
  unfold compute_costs. destruct (compute_eta solve (e_market e) o (e_shares e)) as [eta bad]. cbn [fst].
  eexists. split; [reflexivity|]. intros j. cbn beta. ring.
Qed.

Lemma hhi_positive e f shares : (0 < mJ (fm (e_market e)))%nat ->
  (forall j, (j < mJ (fm (e_market e)))%nat -> 0 < match shares with Some s => s j | None => e_shares e j end) ->
  0 < hhi_method e (Some f) shares.
Proof.
  intros HJ HS. unfold hhi_method. set (s := match shares with Some s => s | None => e_shares e end).
  set (J := mJ (fm (e_market e))) in *. set (products := map (fun j => (f j, s j)) (seq 0 J)).
  assert (HS' : forall j, (j < J)%nat -> 0 < s j) by (intros j Hj; specialize (HS j Hj); unfold s; destruct shares; exact HS).
  assert (HT : 0 < total snd products).
  { unfold products. clearbody s. revert HS' HJ. clear. intros HS HJ.
    assert (H : forall l, (forall j, In j l -> 0 < s j) -> l <> [] -> 0 < total snd (map (fun j => (f j, s j)) l)).
    { intros [|j l] Hl Hn; [congruence|]. unfold total. cbn [map fold_right snd].
      assert (0 < s j) by (apply Hl; left; reflexivity).
      assert (HN : forall l, (forall j, In j l -> 0 < s j) -> 0 <= fold_right (fun (x : Z * R) acc => snd x + acc) 0 (map (fun j => (f j, s j)) l)).
      { clear. induction l as [|j l IH]; intros Hl; cbn [map fold_right snd]; [lra|].
        assert (0 < s j) by (apply Hl; left; reflexivity).
        assert (0 <= fold_right (fun (x : Z * R) acc => snd x + acc) 0 (map (fun j => (f j, s j)) l)) by (apply IH; intros q Hq; apply Hl; right; exact Hq). lra. }
      specialize (HN l (fun q Hq => Hl q (or_intror Hq))). lra. }
    apply H; [intros j Hj; apply in_seq in Hj; apply HS; lia|]. destruct J; [lia|discriminate]. }
  set (firms := nodup Z.eq_dec (map fst products)).
  assert (HL := hhi_lower products firms (NoDup_nodup _ _)).
  assert (0 < 10000 / INR (length firms)).
  { apply Rdiv_lt_0_compat; [lra|]. apply lt_0_INR.
    assert (In (f 0%nat) firms). { apply nodup_In. unfold products. rewrite map_map. apply in_map_iff. exists 0%nat. split; [reflexivity|]. apply in_seq. lia. }
    destruct firms; [destruct H|cbn; lia]. }
  eapply Rlt_le_trans; [exact H|]. apply HL; [|exact HT]. intros g. unfold firms. rewrite nodup_In, in_map_iff. split.
  - intros [[g' s'] [<- Hin]]. exists s'. exact Hin.
  - intros [s' Hin]. exists (g, s'). split; [reflexivity|exact Hin].
Qed.

(** An example: two products that cost nothing and have a third of the market each, with costs that depend on shares. *)
Lemma norm_sensible a b : 0 < a -> 0 <= b -> sensible (mk_tol (Num a) (Num b) infinity_norm).
Proof.
  intros Ha Hb. constructor; cbn [t_atol t_rtol t_norm].
  - exists a. split; [reflexivity|exact Ha].
  - exists b. split; [reflexivity|exact Hb].
  - intros x. unfold infinity_norm, vfin. induction x as [|c x IH]; intros F; cbn [fold_right].
    + exists 0. split; [reflexivity|lra].
    + cbn [forallb] in F. apply andb_prop in F. destruct F as [Fc Fx]. destruct (IH Fx) as [v [-> Hv]].
      destruct c as [c| | |]; try discriminate. cbn [fabs]. unfold fmax. cbn [fnan orb fltb]. unfold rltb.
      destruct (Rlt_dec (Rabs c) v); eexists; (split; [reflexivity|]); [exact Hv|apply Rabs_pos].
  - intros x. unfold infinity_norm. induction x as [|c x IH]; intros H; cbn [fold_right]; [reflexivity|].
    rewrite (IH (fun v Hv => H v (or_intror Hv))), (H c (or_introl eq_refl)). cbn [fabs]. rewrite Rabs_R0.
    unfold fmax. cbn [fnan orb fltb]. unfold rltb. destruct (Rlt_dec 0 0); reflexivity.
Qed.

Definition free_market : full_market := flat_market 2 (fun _ => 1).
Definition scale_economies : supply := mk_supply 1 (fun _ => SupplyModel.mk_column true (fun _ s => s) (fun _ _ => 1) (fun _ _ => 0)) (fun _ => - (1)) LinearCosts.
Definition free_data (firm : option (nat -> Z)) (ownership : option (nat -> nat -> R)) : estimated :=
  mk_estimated free_market (fun _ => / 3) firm ownership scale_economies.

Lemma free_columns : data_columns free_market.
Proof. intros j k _ Hk. cbn in Hk. lia. Qed.
Lemma free_reproduces firm ownership : reproduces (free_data firm ownership).
Proof.
  intros j Hj. cbn [free_data e_market e_shares] in *. cbn [fm fI fw free_market flat_market mJ] in *.
  transitivity (shares_at free_market (fun _ => 0) j).
  - unfold shares_at. apply sumn_ext. intros i Hi. f_equal. symmetry. unfold probs. apply probabilities_ext; [apply (flat_valid 2 (fun _ => 1)); lia|exact Hj|].
    intros k Hk. unfold utility. f_equal. f_equal. unfold update_delta. cbn. ring.
  - unfold free_market. rewrite flat_shares by exact Hj. cbn. field.
Qed.
Lemma free_costs o : let A := capital_delta free_market o (var0 free_market) in
  A 0%nat 0%nat = 2 / 9 * o 0%nat 0%nat /\ A 0%nat 1%nat = - (1 / 9) * o 0%nat 1%nat /\ A 1%nat 0%nat = - (1 / 9) * o 1%nat 0%nat /\ A 1%nat 1%nat = 2 / 9 * o 1%nat 1%nat.
Proof.
  cbv zeta. change (var0 free_market) with (fun _ : nat => 0). unfold free_market. rewrite !capital_delta_jacobian.
  repeat split; rewrite flat_jacobian by lia; cbn; field.
Qed.
Lemma free_solution o : o 0%nat 0%nat = 1 -> o 1%nat 1%nat = 1 -> o 0%nat 1%nat * o 1%nat 0%nat <> 4 ->
  snd (compute_costs cramer free_market o (fun _ => / 3)) = false /\
  fst (compute_costs cramer free_market o (fun _ => / 3)) 0%nat = - ((6 + 3 * o 0%nat 1%nat) / (4 - o 0%nat 1%nat * o 1%nat 0%nat)) /\
  fst (compute_costs cramer free_market o (fun _ => / 3)) 1%nat = - ((6 + 3 * o 1%nat 0%nat) / (4 - o 0%nat 1%nat * o 1%nat 0%nat)).
Proof.
  intros D0 D1 HN. unfold compute_costs, compute_eta, cramer, determinant.
  destruct (free_costs o) as [E00 [E01 [E10 E11]]]. rewrite E00, E01, E10, E11, D0, D1.
  destruct (Req_EM_T _ 0) as [E|E]; [exfalso; nra|]. cbn [fst snd]. change (var0 free_market) with (fun _ : nat => 0).
  split; [reflexivity|]. split; field; intros Z; nra.
Qed.
Lemma free_lamda j : (j < 2)%nat -> lamda_at free_market (var0 free_market) j <> 0.
Proof. intros Hj. change (var0 free_market) with (fun _ : nat => 0). unfold free_market. rewrite flat_lamda by exact Hj. cbn. lra. Qed.

(** With asymmetric ownership, prices move away. *)
Lemma asymmetric_moves cc :
  let e := free_data None (Some one_sided) in
  endogenous_contraction cc free_market one_sided (e_supply e) (e_shares e) (fst (compute_costs cramer free_market one_sided (e_shares e)))
    (ConvModel.column (flat 2 (var0 free_market))) 0%nat <> 0.
Proof.
  intros e. unfold endogenous_contraction.
  destruct (free_solution one_sided ltac:(reflexivity) ltac:(reflexivity) ltac:(unfold one_sided; cbn; lra)) as [_ [C0 C1]].
  assert (V : valid_market (fm free_market)) by (apply (flat_valid 2 (fun _ => 1)); lia).
  rewrite (contraction_same free_market (ConvModel.column (flat 2 (var0 free_market))) (var0 free_market) V (fun k Hk => column_flat 2 (var0 free_market) k Hk)
             one_sided _ (fst (compute_costs cramer free_market one_sided (e_shares e))) 0%nat ltac:(cbn; lia)).
  - change (e_shares e) with (fun _ : nat => / 3). change (var0 free_market) with (fun _ : nat => 0). unfold price_contraction, zeta.
    unfold free_market in *. rewrite flat_lamda, flat_shares by lia.
    change (mJ (fm (flat_market 2 (fun _ => 1)))) with 2%nat. cbn [sumn]. rewrite !flat_gamma, C0, C1 by lia.
    unfold lamda_inv, one_sided. destruct (Req_EM_T (- (1) / (1 + INR 2)) 0) as [E|E]; cbn in *; [lra|].
    assert (X : 1 / (- (1) / (1 + (1 + 1))) = - 3) by field. rewrite X. lra.
  - intros k Hk. unfold costs_given. destruct cc; [reflexivity|].
    transitivity (update_costs (e_supply e) (e_shares e) (fst (compute_costs cramer free_market one_sided (e_shares e))) (shares_at free_market (var0 free_market)) k).
    + unfold update_costs.
      rewrite (shares_same free_market (ConvModel.column (flat 2 (var0 free_market))) (var0 free_market) V (fun k Hk => column_flat 2 (var0 free_market) k Hk) k Hk). reflexivity.
    + exact (observed_costs e V free_columns (free_reproduces None (Some one_sided)) (e_supply e) _ k Hk).
Qed.
