(** Approximate prices after mergers and cost changes with plain logit demand. *)
From Coq Require Import Reals ZArith Lra Lia List Bool Arith.
From Verif Require Import Base FltModel IterModel DemandModel DemandSpec DemandProofs SupplyModel SupplySpec SupplyProofs
  WelfareModel PostModel ConvModel EquilModel EquilSpec EquilProofs EquilMarket EquilMerger TaxSpec TaxMarket ApproxSpec.
Local Open Scope R_scope.

Section Approx.
Variables (M : full_market) (a : R).
Hypothesis L : plain_logit M a.
Notation J := (mJ (fm M)).
Notation W := (sumn (fI M) (fw M)).
Let A0 : 0 < a := pl_dislike M a L.
Let W0 : 0 < W := pl_weights M a L.

(** The sum of shares of products that are sold by the firm of product j. *)
Definition firm_total (ids : list Z) (x : nat -> R) (j : nat) : R := sumn J (fun k => same (owner ids) k j * shares_at M x k).

Lemma markup_of_total costs ids x j : bertrand J (firm_ownership ids) costs (shares_at M) x -> (j < J)%nat ->
  a * (x j - costs j) * (W - firm_total ids x j) = W /\ 0 < x j - costs j /\ 0 < W - firm_total ids x j.
Proof.
  intros B Hj. assert (F := proj1 (bertrand_iff_fixed M a L costs ids x) B). assert (HE := at_cost_pos M costs).
  destruct (fixed_share J (owner ids) (at_cost M costs) a A0 HE (margins costs x) j F Hj) as (P & _ & _).
  assert (C := fixed_common J (owner ids) (at_cost M costs) a (margins costs x) j F Hj).
  assert (E : a * (x j - costs j) * (W - firm_total ids x j) = W).
  { assert (N := F j Hj). unfold next, firm_margin in N.
    assert (S : sumn J (fun k => same (owner ids) k j * share_at J (at_cost M costs) a (margins costs x) k * margins costs x k)
      = margins costs x j * / W * firm_total ids x j).
    { unfold firm_total. rewrite <- sumn_scal. apply sumn_ext. intros k Hk. rewrite (plain_shares M a L costs x k Hk).
      destruct (same_cases (owner ids) k j) as [[ -> _]|[ -> Y]]; [ring|]. rewrite (C k Hk Y). field. lra. }
    rewrite S in N. unfold margins in *. set (m := x j - costs j) in *. set (T := firm_total ids x j) in *.
    assert (N2 : a * m = 1 + a * m * / W * T) by (rewrite <- N at 1; field; lra).
    replace (a * m * (W - T)) with (a * m * W - a * m * / W * T * W) by (field; lra). rewrite N2 at 1. ring. }
  split; [exact E|]. split; [exact P|]. unfold margins in P.
  assert (Q : 0 < a * (x j - costs j)) by (apply Rmult_lt_0_compat; assumption).
  apply Rmult_lt_reg_l with (a * (x j - costs j)); [exact Q|]. rewrite E, Rmult_0_r. exact W0.
Qed.

(** Markups are larger if the firm's shares are. *)
Lemma markup_order costs costs' ids ids' x y j : bertrand J (firm_ownership ids) costs (shares_at M) x -> bertrand J (firm_ownership ids') costs' (shares_at M) y -> (j < J)%nat ->
  (firm_total ids x j <= firm_total ids' y j -> x j - costs j <= y j - costs' j) /\
  (firm_total ids x j < firm_total ids' y j -> x j - costs j < y j - costs' j).
Proof.
  intros B B' Hj. destruct (markup_of_total costs ids x j B Hj) as (E & P & Q). destruct (markup_of_total costs' ids' y j B' Hj) as (E' & P' & Q').
  set (m := x j - costs j) in *. set (n := y j - costs' j) in *. set (T := firm_total ids x j) in *. set (U := firm_total ids' y j) in *.
  assert (X : m * (W - T) = n * (W - U)) by (apply Rmult_eq_reg_l with a; [lra|apply Rgt_not_eq; exact A0]).
  split; intro H.
  - apply Rmult_le_reg_r with (W - U); [exact Q'|]. rewrite <- X. apply Rmult_le_compat_l; lra.
  - apply Rmult_lt_reg_r with (W - U); [exact Q'|]. rewrite <- X. apply Rmult_lt_compat_l; lra.
Qed.

Section OneMerger.
Variables (costs : nat -> R) (ids ids' : list Z) (p q : nat -> R) (j : nat).
Hypothesis Hj : (j < J)%nat.
Hypothesis G : merger J ids ids'.
Hypothesis One : only_merger J ids ids' j.
Hypothesis P : bertrand J (firm_ownership ids) costs (shares_at M) p.
Hypothesis Q : bertrand J (firm_ownership ids') costs (shares_at M) q.

Lemma merger_total : firm_total ids' q j - firm_total ids' p j <= sumn J (shares_at M q) - sumn J (shares_at M p).
Proof.
  assert (H : sumn J (fun k => shares_at M p k - same (owner ids') k j * shares_at M p k) <= sumn J (fun k => shares_at M q k - same (owner ids') k j * shares_at M q k)).
  { apply sumn_le. intros k Hk. destruct (same_cases (owner ids') k j) as [[ -> N]|[ -> _]]; [|lra].
    assert (X := merger_outsiders M a costs ids ids' p q L G P Q k Hk).
    destruct X as [X _]; [|lra]. intros l Hl E. exact (One k l Hk Hl N E). }
  rewrite !sumn_minus in H. unfold firm_total. lra.
Qed.
Lemma merger_total_falls : firm_total ids' q j <= firm_total ids' p j.
Proof. assert (X := merger_total). assert (Y := merger_outside M a costs ids ids' p q L G P Q). lra. Qed.
Lemma inside_falls_strictly k : (k < J)%nat -> p k < q k -> sumn J (shares_at M q) < sumn J (shares_at M p).
Proof.
  intros Hk Lt. assert (HE := at_cost_pos M costs).
  rewrite (sumn_ext J (shares_at M q) _ (fun j Hj => plain_shares M a L costs q j Hj)).
  rewrite (sumn_ext J (shares_at M p) _ (fun j Hj => plain_shares M a L costs p j Hj)).
  rewrite !sumn_scal_r. apply Rmult_lt_compat_r; [exact W0|].
  change (sumn J (share_at J (at_cost M costs) a (margins costs q)) < sumn J (share_at J (at_cost M costs) a (margins costs p))).
  rewrite !(shares_sum J (at_cost M costs) a HE).
  assert (W1 := weights_ge J (at_cost M costs) a HE (margins costs q)).
  apply Rplus_lt_compat_l. apply Ropp_lt_contravar. apply Rinv_lt_contravar.
  { assert (W2 := weights_ge J (at_cost M costs) a HE (margins costs p)). apply Rmult_lt_0_compat; lra. }
  unfold all_weights. apply Rplus_lt_compat_l.
  assert (D : 0 < sumn J (fun l => weight_of (at_cost M costs) a (margins costs p) l - weight_of (at_cost M costs) a (margins costs q) l)).
  { apply sumn_pos.
    - intros l Hl. assert (Y := weight_anti J (at_cost M costs) a A0 HE (margins costs p) (margins costs q) l Hl).
      assert (Z := margin_rises M a costs ids ids' p q L G P Q l Hl). specialize (Y Z). lra.
    - exists k. split; [exact Hk|]. unfold weight_of. apply Rlt_Rminus. apply Rmult_lt_compat_l; [apply HE, Hk|]. apply exp_increasing.
      unfold margins. apply Ropp_lt_contravar. apply Rmult_lt_compat_l; [exact A0|lra]. }
  rewrite sumn_minus in D. lra.
Qed.
End OneMerger.

(** Approximate prices in terms of costs that would rationalize observed prices after the merger. *)
Lemma approximate_is solve O O' observed costs : snd (compute_approximate_prices solve M O O' observed costs) = false ->
  snd (compute_costs solve M O' observed) = false /\ (costs = None -> snd (compute_costs solve M O observed) = false) /\
  forall k, fst (compute_approximate_prices solve M O O' observed costs) k
    = (match costs with Some c => c k | None => fst (compute_costs solve M O observed) k end) + (var0 M k - fst (compute_costs solve M O' observed) k).
Proof.
  unfold compute_approximate_prices, compute_costs.
  destruct (compute_eta solve M O observed) as [e1 b1]. destruct (compute_eta solve M O' observed) as [e2 b2]. destruct costs as [c|]; cbn [fst snd].
  - intros E. split; [exact E|]. split; [discriminate|]. intro k. ring.
  - intro E. apply orb_false_iff in E. split; [tauto|]. split; [tauto|]. intro k. ring.
Qed.
Lemma recovered solve ids : exact_solver J solve -> snd (compute_costs solve M (firm_ownership ids) (shares_at M (var0 M))) = false ->
  bertrand J (firm_ownership ids) (fst (compute_costs solve M (firm_ownership ids) (shares_at M (var0 M)))) (shares_at M) (var0 M).
Proof.
  intros S H. apply costs_bertrand; try assumption.
  - apply (pl_valid M a L).
  - apply (plain_good M a L).
  - intros k _. unfold firm_ownership. rewrite Z.eqb_refl. reflexivity.
  - reflexivity.
Qed.

Section Results.
Variables (solve : solver) (ids ids' : list Z) (q : nat -> R).
Hypothesis S : exact_solver J solve.
Notation observed := (shares_at M (var0 M)).
Notation c := (fst (compute_costs solve M (firm_ownership ids) observed)).
Notation approx := (fst (compute_approximate_prices solve M (firm_ownership ids) (firm_ownership ids') observed None)).
Hypothesis Ok : snd (compute_approximate_prices solve M (firm_ownership ids) (firm_ownership ids') observed None) = false.
Hypothesis Q : bertrand J (firm_ownership ids') c (shares_at M) q.
Hypothesis G : merger J ids ids'.

Lemma merging j : (j < J)%nat -> only_merger J ids ids' j ->
  (q j <= approx j) /\ (forall k, (k < J)%nat -> nth j ids' 0%Z = nth k ids' 0%Z -> nth j ids 0%Z <> nth k ids 0%Z -> var0 M j < q j < approx j).
Proof.
  intros Hj One. destruct (approximate_is solve (firm_ownership ids) (firm_ownership ids') observed None Ok) as (E' & E & F). specialize (E eq_refl).
  assert (P := recovered solve ids S E). assert (P' := recovered solve ids' S E').
  destruct (markup_order c _ ids' ids' q (var0 M) j Q P' Hj) as [H1 H2]. rewrite (F j). cbn iota. split.
  - assert (X := H1 (merger_total_falls c ids ids' (var0 M) q j G One P Q)). lra.
  - intros k Hk Sk N. assert (R := merger_rises_strictly M a c ids ids' (var0 M) q L G P Q j k Hj Hk Sk N).
    assert (T := inside_falls_strictly c ids ids' (var0 M) q G P Q j Hj R). assert (T2 := merger_total c ids ids' (var0 M) q j G One P Q).
    split; [exact R|]. assert (X : firm_total ids' q j < firm_total ids' (var0 M) j) by lra. assert (Y := H2 X). lra.
Qed.
Lemma outsider k : (k < J)%nat -> (forall l, (l < J)%nat -> nth k ids' 0%Z = nth l ids' 0%Z -> nth k ids 0%Z = nth l ids 0%Z) ->
  approx k = var0 M k /\ var0 M k <= q k.
Proof.
  intros Hk O. destruct (approximate_is solve (firm_ownership ids) (firm_ownership ids') observed None Ok) as (E' & E & F). specialize (E eq_refl).
  assert (P := recovered solve ids S E). assert (P' := recovered solve ids' S E').
  assert (T : firm_total ids (var0 M) k = firm_total ids' (var0 M) k).
  { unfold firm_total. apply sumn_ext. intros l Hl. f_equal.
    destruct (same_cases (owner ids) l k) as [[ -> N]|[ -> Y]], (same_cases (owner ids') l k) as [[ -> N2]|[ -> Y2]]; try reflexivity; exfalso.
    - apply N. symmetry. apply O; [exact Hl|symmetry; exact Y2].
    - apply N2. apply (G l k Hl Hk Y). }
  destruct (markup_order c _ ids ids' (var0 M) (var0 M) k P P' Hk) as [H1 _]. destruct (markup_order _ c ids' ids (var0 M) (var0 M) k P' P Hk) as [H2 _].
  rewrite T in H1, H2. specialize (H1 (Rle_refl _)). specialize (H2 (Rle_refl _)). split.
  - rewrite (F k). cbn iota. lra.
  - exact (merger_rises M a c ids ids' (var0 M) q L G P Q k Hk).
Qed.
End Results.

Lemma cost_change solve ids observed c k : fst (compute_approximate_prices solve M (firm_ownership ids) (firm_ownership ids) observed (Some c)) k
  = var0 M k + (c k - fst (compute_costs solve M (firm_ownership ids) observed) k).
Proof. unfold compute_approximate_prices, compute_costs. destruct (compute_eta solve M (firm_ownership ids) observed) as [e b]. cbn [fst]. ring. Qed.
End Approx.
