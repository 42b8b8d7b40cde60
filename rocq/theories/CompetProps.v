(** Property theorems about competition of firms that each sell in one nest (C159). *)
From Coq Require Import Reals Lra Lia ZArith List Bool Arith.
From Verif Require Import Base DemandModel DemandProofs SupplyModel SupplySpec SupplyProofs WelfareModel ClosedSpec ClosedProofs ClosedProps CompetSpec CompetProofs CompetExist.
Local Open Scope R_scope.

(** * C159 With nested logit demand and firms that each sell in one nest, there is one equilibrium, and mergers and costs raise prices *)

(** Markups in equilibrium, and only in equilibrium, are a formula of the share of the firm and of what it sells of its nest. *)
Theorem C159_markups M a firm costs p : nested_demand M a -> one_nest (fm M) firm ->
  bertrand (mJ (fm M)) (owned firm) costs (shares_at M) p <->
  forall j, (j < mJ (fm M))%nat ->
    let s := shares_at M p in let r := nesting (fm M) j in
    p j - costs j = (1 - r) / (a * (1 - r * firm_in_nest (fm M) firm s j - (1 - r) * firm_total (fm M) firm s j)).
Proof.
  intros N F. assert (E : forall j, (j < mJ (fm M))%nat -> let s := shares_at M p in let r := nesting (fm M) j in
    mk M a firm p j = (1 - r) / (a * (1 - r * firm_in_nest (fm M) firm s j - (1 - r) * firm_total (fm M) firm s j))).
  { intros j Hj s r. unfold r, s. rewrite (firm_share M a N firm F p j Hj), (firm_nest M a N firm F p j Hj), <- r_nesting. reflexivity. }
  split.
  - intros B j Hj s r. unfold s, r. rewrite <- (E j Hj). exact (equilibrium_markup M a N firm F costs p j B Hj).
  - intros B. apply (markups_suffice M a N firm F). intros j Hj. rewrite (E j Hj). exact (B j Hj).
Qed.
Print Assumptions C159_markups.

(** Whatever costs, there is exactly one equilibrium. *)
Theorem C159_exactly_one M a firm costs : nested_demand M a -> one_nest (fm M) firm ->
  exists p, bertrand (mJ (fm M)) (owned firm) costs (shares_at M) p /\
    forall q, bertrand (mJ (fm M)) (owned firm) costs (shares_at M) q -> forall j, (j < mJ (fm M))%nat -> q j = p j.
Proof.
  intros N F. destruct (equilibrium_exists M a N firm F costs) as (p & B). exists p. split; [exact B|]. intros q Bq j Hj.
  assert (R : merges (mJ (fm M)) firm firm) by (intros i k _ _ E; exact E). assert (S0 : same_change (mJ (fm M)) firm costs costs) by (intros i k _ _ _; ring).
  assert (C : forall k, (k < mJ (fm M))%nat -> costs k - costs k <= 0) by (intros k _; lra).
  pose proof (falls_bounded M a N firm firm F R costs costs p q B Bq S0 0 (Rle_refl 0) C j Hj).
  pose proof (falls_bounded M a N firm firm F R costs costs q p Bq B S0 0 (Rle_refl 0) C j Hj). lra.
Qed.
Print Assumptions C159_exactly_one.

(** So the contraction behind compute_prices has exactly one fixed point, and all routines that find one find the same prices from all starting
    prices. *)
Theorem C159_fixed_point M a firm costs : nested_demand M a -> one_nest (fm M) firm -> (0 < fI M)%nat -> (forall i, (i < fI M)%nat -> 0 < fw M i) ->
  let fixed q := forall j, (j < mJ (fm M))%nat -> price_contraction M (owned firm) costs q j = q j in
  exists p, fixed p /\ forall q, fixed q -> forall j, (j < mJ (fm M))%nat -> q j = p j.
Proof.
  intros N F HI Hw fixed. assert (Q : forall x, fixed x <-> bertrand (mJ (fm M)) (owned firm) costs (shares_at M) x).
  { intros x. apply contraction_fixed_iff_bertrand; [apply (ct_valid M a (nd_tastes M a N))|apply (nd_columns M a N)| | |exact HI|exact Hw|].
    - intros j k _ _. unfold owned. rewrite Z.eqb_sym. reflexivity.
    - intros j _. unfold owned. rewrite Z.eqb_refl. reflexivity.
    - intros i j _ Hj. rewrite (tastes_slope M a (nd_tastes M a N) x i j Hj). pose proof (nd_positive M a N). lra. }
  destruct (C159_exactly_one M a firm costs N F) as (p & B & U0). exists p. split; [apply Q; exact B|]. intros q Fq. apply U0, Q, Fq.
Qed.
Print Assumptions C159_fixed_point.

(** When costs of firms rise, all prices rise or stay, by at most the largest rise; when all costs rise, all prices rise. *)
Theorem C159_costs M a firm costs costs' p p' d : nested_demand M a -> one_nest (fm M) firm ->
  bertrand (mJ (fm M)) (owned firm) costs (shares_at M) p -> bertrand (mJ (fm M)) (owned firm) costs' (shares_at M) p' ->
  same_change (mJ (fm M)) firm costs costs' -> (forall j, (j < mJ (fm M))%nat -> 0 <= costs' j - costs j <= d) ->
  forall j, (j < mJ (fm M))%nat -> 0 <= p' j - p j <= d /\
    (costs j < costs' j -> p j < p' j) /\ (0 < p' j - p j -> (forall k, (k < mJ (fm M))%nat -> p' k - p k <= p' j - p j) -> p' j - p j < costs' j - costs j).
Proof.
  intros N F B B' S0 C j Hj. assert (R : merges (mJ (fm M)) firm firm) by (intros i k _ _ E; exact E).
  assert (S1 : same_change (mJ (fm M)) firm costs' costs) by (intros i k Hi Hk E; pose proof (S0 i k Hi Hk E); lra).
  assert (L : forall k, (k < mJ (fm M))%nat -> p k - p' k <= 0).
  { intros k Hk. apply (falls_bounded M a N firm firm F R costs costs' p p' B B' S0 0 (Rle_refl 0)); [|exact Hk]. intros l Hl. pose proof (C l Hl). lra. }
  assert (Hd : 0 <= d) by (pose proof (C j Hj); lra).
  pose proof (falls_bounded M a N firm firm F R costs' costs p' p B' B S1 d Hd (fun k Hk => proj2 (C k Hk)) j Hj) as G.
  split; [pose proof (L j Hj); lra|split].
  - intros Cj. pose proof (L j Hj) as Lj. destruct (Req_dec (p j) (p' j)) as [E|]; [|lra]. exfalso.
    destruct (at_largest_fall M a N firm firm F R costs costs' p p' B B' S0 j Hj) as [X _]; [intros k Hk; pose proof (L k Hk); lra|lra|]. lra.
  - intros P Mx. destruct (at_largest_fall M a N firm firm F R costs' costs p' p B' B S1 j Hj Mx ltac:(lra)) as [_ X]. apply X. left. exact P.
Qed.
Print Assumptions C159_costs.

(** Mergers within nests lower no price, and raise prices of firms that acquire products.  Cost savings of at most [d] for each product cannot lower
    prices by more than [d]. *)
Theorem C159_mergers M a before after costs p p' : nested_demand M a -> one_nest (fm M) after -> merges (mJ (fm M)) before after ->
  bertrand (mJ (fm M)) (owned before) costs (shares_at M) p -> bertrand (mJ (fm M)) (owned after) costs (shares_at M) p' ->
  forall j, (j < mJ (fm M))%nat -> p j <= p' j /\ (acquires (mJ (fm M)) before after j -> p j < p' j).
Proof.
  intros N F R B B' j Hj. assert (S0 : same_change (mJ (fm M)) before costs costs) by (intros i k _ _ _; ring).
  assert (L : forall k, (k < mJ (fm M))%nat -> p k - p' k <= 0).
  { apply (falls_bounded M a N before after F R costs costs p p' B B' S0 0 (Rle_refl 0)). intros k _. lra. }
  pose proof (L j Hj) as Lj. split; [lra|]. intros A. destruct (Req_dec (p j) (p' j)) as [E|]; [|lra]. exfalso.
  destruct (at_largest_fall M a N before after F R costs costs p p' B B' S0 j Hj) as [_ X]; [intros k Hk; pose proof (L k Hk); lra|lra|].
  pose proof (X (or_intror A)). lra.
Qed.
Print Assumptions C159_mergers.
Theorem C159_savings M a before after costs costs' p p' d : nested_demand M a -> one_nest (fm M) after -> merges (mJ (fm M)) before after ->
  bertrand (mJ (fm M)) (owned before) costs (shares_at M) p -> bertrand (mJ (fm M)) (owned after) costs' (shares_at M) p' ->
  same_change (mJ (fm M)) before costs costs' -> 0 <= d -> (forall j, (j < mJ (fm M))%nat -> costs j - costs' j <= d) ->
  forall j, (j < mJ (fm M))%nat -> p j - d <= p' j.
Proof.
  intros N F R B B' S0 Hd C j Hj. pose proof (falls_bounded M a N before after F R costs costs' p p' B B' S0 d Hd C j Hj). lra.
Qed.
Print Assumptions C159_savings.

(** Wherever all prices are at least as high, fewer consumers buy and consumer surplus is not greater; so neither mergers within nests nor higher
    costs benefit consumers. *)
Theorem C159_consumers M a p p' : nested_demand M a -> eps_scale (fm M) = 1 -> (forall j, (j < mJ (fm M))%nat -> p j <= p' j) ->
  outside_share (fm M) (shares_at M p) <= outside_share (fm M) (shares_at M p') /\
  consumer_surplus M (fun _ => None) None p' <= consumer_surplus M (fun _ => None) None p.
Proof.
  intros N E L. pose proof (nd_tastes M a N) as T. pose proof (nd_positive M a N) as Ha.
  assert (O : outside_share (fm M) (shares_at M p) <= outside_share (fm M) (shares_at M p')).
  { rewrite !(outside_weights M a T). pose proof (total_le M a N p p' L) as Q. pose proof (total_nonneg M p'). apply Rinv_le_contravar; [|apply Rplus_le_compat_l; exact Q].
    change (0 < 1 + total_pow M p'). lra. }
  split; [exact O|]. rewrite !(surplus_closed M a T _ E Ha). unfold Rdiv. apply Rmult_le_compat_r; [left; apply Rinv_0_lt_compat; exact Ha|].
  apply Ropp_le_contravar. apply DemandShares.ln_le'; [apply (outside_pos M a T p)|exact O].
Qed.
Print Assumptions C159_consumers.

(** Three products in two nests; the two firms of the first nest merge. *)
Example C159_applies : nested_demand (nested_prices 2) 2 /\ nested_demand (nested_prices 0) 2 /\
  one_nest (fm (nested_prices 2)) Z.of_nat /\ one_nest (fm (nested_prices 2)) (fun j => if Nat.ltb j 2 then 0 else 1)%Z /\
  merges 3 Z.of_nat (fun j => if Nat.ltb j 2 then 0 else 1)%Z /\ acquires 3 Z.of_nat (fun j => if Nat.ltb j 2 then 0 else 1)%Z 0 /\
  same_change 3 Z.of_nat (fun _ => 1) (fun j => 1 + INR j) /\ eps_scale (fm (nested_prices 2)) = 1.
Proof.
  destruct C157_applies as (T2 & T0 & G & _).
  split; [|split; [|split; [|split; [|split; [|split; [|split]]]]]].
  - constructor; [exact T2|lra|exact G|]. intros j Hj. unfold nesting. cbn. destruct (_ =? 0)%nat; lra.
  - constructor; [exact T0|lra| |intros j Hj; unfold nesting; cbn; lra]. intros x. split; intros k j _ Hk _; cbn in Hk; [|lia]. cbn. exact (derivable_pt_lim_id (x j)).
  - intros j k _ _ E. right. apply Nat2Z.inj in E. rewrite E. reflexivity.
  - intros j k _ _. cbn [nested_prices fm gid]. destruct (Nat.ltb j 2), (Nat.ltb k 2); intros E; try discriminate; right; reflexivity.
  - intros j k _ _ E. apply Nat2Z.inj in E. rewrite E. reflexivity.
  - exists 1%nat. split; [lia|]. split; [discriminate|reflexivity].
  - intros j k _ _ E. apply Nat2Z.inj in E. rewrite E. reflexivity.
  - reflexivity.
Qed.
