(** Property C146: products that are split into identical copies. *)
From Coq Require Import Reals Lra Lia ZArith List Bool Arith FunctionalExtensionality.
From Verif Require Import Base DemandModel DemandSpec DemandProofs DemandShares SupplyModel SupplySpec SupplyProofs EquilWitness OrderWitness
  WelfareModel SplitSpec SplitProofs.
Import ListNotations.
Local Open Scope R_scope.

(** If mean utilities of copies are lower by epsilon_scale (1 - rho) times minus the log of the part that they are of the original, then
    with any restriction of choices, the probability of choosing a copy is this part of that of the original, and so is that within the nest. *)
Theorem C146_probabilities : forall m J' h f c safe safe' delta mu, valid_market m -> divides (mJ m) J' h f ->
  (forall k, (k < J')%nat ->
     fst (probabilities_linear (split_market J' h m) (split_choice h c) safe' (split_delta m h f delta) (fun k => mu (h k))) k =
     f k * fst (probabilities_linear m c safe delta mu) (h k)) /\
  match snd (probabilities_linear (split_market J' h m) (split_choice h c) safe' (split_delta m h f delta) (fun k => mu (h k))),
        snd (probabilities_linear m c safe delta mu) with
  | Some x, Some y => forall k, (k < J')%nat -> x k = f k * y (h k)
  | None, None => True
  | _, _ => False
  end.
Proof. intros m J' h f c safe safe' delta mu V D. exact (probabilities_split m J' h f V D c safe safe' delta mu). Qed.
Print Assumptions C146_probabilities.

(** Market shares of copies add up to that of the original, which is unchanged, like those of products that are not split. *)
Theorem C146_shares : forall m J' h f a safe safe' delta, valid_market m -> divides (mJ m) J' h f ->
  let shares' := market_shares (split_market J' h m) (split_agents h a) safe' (split_delta m h f delta) in
  (forall k, (k < J')%nat -> shares' k = f k * market_shares m a safe delta (h k)) /\
  (forall j, (j < mJ m)%nat -> sumn J' (fun k => if Nat.eqb (h k) j then shares' k else 0) = market_shares m a safe delta j).
Proof.
  intros m J' h f a safe safe' delta V D shares'.
  assert (S1 : forall k, (k < J')%nat -> shares' k = f k * market_shares m a safe delta (h k)) by exact (fun k Hk => shares_split m J' h f V D a safe safe' delta k Hk).
  split; [exact S1|]. intros j Hj. rewrite <- (fibre_sum m J' h f D (market_shares m a safe delta) j Hj). apply sumn_ext. intros k Hk.
  rewrite (S1 k Hk). reflexivity.
Qed.
Print Assumptions C146_shares.

(** So from data in which a product is split, mean utilities are recovered that are lower by the same amount for its copies, and the same
    for other products: by the closed form, by each step of the contraction, and in general. *)
Theorem C146_mean_utilities : forall m J' h f, valid_market m -> divides (mJ m) J' h f ->
  (forall a safe safe' x y, valid_agents a -> (mH m <> O -> forall g, (g < mH m)%nat -> 0 <= grho m g) ->
     (forall k, (k < J')%nat -> market_shares (split_market J' h m) (split_agents h a) safe' y k = f k * market_shares m a safe x (h k)) ->
     forall k, (k < J')%nat -> y k = split_delta m h f x k) /\
  (forall shares k, (forall j, (j < mJ m)%nat -> 0 < shares j) -> (k < J')%nat ->
     closed_form_delta (split_market J' h m) (fun k => f k * shares (h k)) k = split_delta m h f (closed_form_delta m shares) k) /\
  (forall a safe safe' shares x k, valid_agents a -> (forall j, (j < mJ m)%nat -> 0 < shares j) -> (k < J')%nat ->
     contraction (split_market J' h m) (split_agents h a) safe' (None, None) (fun k => f k * shares (h k)) (split_delta m h f x) k =
     split_delta m h f (contraction m a safe (None, None) shares x) k).
Proof.
  intros m J' h f V D. split; [|split].
  - intros a safe safe' x y A P E. exact (inverse_split m J' h f V D a safe safe' x y A P E).
  - intros shares k P Hk. exact (closed_form_split m J' h f V D shares k P Hk).
  - intros a safe safe' shares x k A P Hk. exact (contraction_split m J' h f V D a safe safe' shares x k A P Hk).
Qed.
Print Assumptions C146_mean_utilities.

(** Copies that are as good as the original are not harmless: n copies take the share of one product with a mean utility that is higher by
    epsilon_scale (1 - rho) ln(n). *)
Theorem C146_identical_products : forall m J' h a safe safe' delta, valid_market m ->
  (forall k, (k < J')%nat -> (h k < mJ m)%nat) -> (forall j, (j < mJ m)%nat -> exists k, (k < J')%nat /\ h k = j) ->
  forall k, (k < J')%nat ->
  copies J' h (h k) * market_shares (split_market J' h m) (split_agents h a) safe' (fun k => delta (h k)) k =
  market_shares m a safe (fun j => delta j + dilution m j (copies J' h j)) (h k).
Proof. exact identical_products. Qed.
Print Assumptions C146_identical_products.

(** Consumer surplus, HHI, and the aggregate elasticity do not depend on how products are split. *)
Theorem C146_welfare : forall M J' h f, valid_market (fm M) -> divides (mJ (fm M)) J' h f ->
  (forall avail mask x, eps_scale (fm M) = 1 ->
     (forall i, (i < fI M)%nat -> utility_derivatives M false (var0 M) i (h O) = utility_derivatives M false (var0 M) i 0) ->
     consumer_surplus (split_full J' h f M) (fun i => option_map (fun (b : nat -> bool) k => indR (b (h k))) (avail i))
       (option_map (fun b k => b (h k)) mask) (fun k => x (h k)) =
     consumer_surplus M (fun i => option_map (fun (b : nat -> bool) j => indR (b j)) (avail i)) mask x) /\
  (forall firm (s : nat -> R), compute_hhi (map (fun k => (firm (h k), f k * s (h k))) (seq 0 J')) =
     compute_hhi (map (fun j => (firm j, s j)) (seq 0 (mJ (fm M))))) /\
  (forall observed factor, aggregate_elasticity (split_full J' h f M) (fun k => f k * observed (h k)) factor = aggregate_elasticity M observed factor).
Proof.
  intros M J' h f V D. split; [|split].
  - intros avail mask x E H. exact (consumer_surplus_split M J' h f V D avail mask x E H).
  - intros firm s. exact (hhi_split _ _ h f firm s D).
  - intros observed factor. exact (aggregate_split M J' h f V D observed factor).
Qed.
Print Assumptions C146_welfare.

(** If copies have the same prices, the total share of copies of one product responds to the price of a copy of another product, or of the
    same one, with the copy's part of the original derivative. *)
Theorem C146_derivatives : forall M J' h f x j k, valid_market (fm M) -> divides (mJ (fm M)) J' h f -> (j < mJ (fm M))%nat -> (k < J')%nat ->
  sumn J' (fun l => if Nat.eqb (h l) j then shares_jacobian (split_full J' h f M) (fun k => x (h k)) l k else 0) = f k * shares_jacobian M x j (h k).
Proof. intros M J' h f x j k V D Hj Hk. exact (jacobian_total M J' h f V D x j k Hj Hk). Qed.
Print Assumptions C146_derivatives.

(** If copies have the costs of what they are copies of and are sold by the same firms, the same prices are those of a Bertrand equilibrium,
    prices imply the same markups, and the contraction maps copies of prices to copies of new prices. *)
Theorem C146_prices : forall M J' h f O, valid_market (fm M) -> divides (mJ (fm M)) J' h f ->
  (forall costs x, good_columns M x -> (forall j, (j < mJ (fm M))%nat -> O j j = 1) ->
     (bertrand J' (fun k l => O (h k) (h l)) (fun k => costs (h k)) (shares_at (split_full J' h f M)) (fun k => x (h k)) <->
      bertrand (mJ (fm M)) O costs (shares_at M) x)) /\
  (forall x markup, markup_equation J' (fun k l => O (h k) (h l)) (shares_jacobian (split_full J' h f M) (fun k => x (h k)))
       (shares_at (split_full J' h f M) (fun k => x (h k))) (fun k => markup (h k)) <->
     markup_equation (mJ (fm M)) O (shares_jacobian M x) (shares_at M x) markup) /\
  (forall costs x k, (k < J')%nat -> lamda_at M x (h k) <> 0 ->
     price_contraction (split_full J' h f M) (fun k l => O (h k) (h l)) (fun k => costs (h k)) (fun k => x (h k)) k =
     price_contraction M O costs x (h k)).
Proof.
  intros M J' h f O V D. split; [|split].
  - intros costs x G HO. exact (bertrand_split M J' h f V D O costs x G HO).
  - intros x markup. exact (markup_equation_split M J' h f V D O x markup).
  - intros costs x k Hk N. exact (price_contraction_split M J' h f V D O costs x k Hk N).
Qed.
Print Assumptions C146_prices.

(** The first of two products is split into a third and two thirds, without or with nests. *)
Definition thirds_of (k : nat) : nat := match k with 2%nat => 1%nat | _ => 0%nat end.
Definition thirds (k : nat) : R := match k with 0%nat => / 3 | 1%nat => 2 / 3 | _ => 1 end.
Example C146_applies : divides 2 3 thirds_of thirds /\ valid_market (fm two_products) /\ mJ (fm two_products) = 2%nat /\
  valid_market two_nests /\ mJ two_nests = 2%nat /\ eps_scale (fm two_products) = 1 /\
  (forall j, (j < 2)%nat -> exists k, (k < 3)%nat /\ thirds_of k = j) /\
  good_columns two_products (var0 two_products) /\ (forall k, lamda_at two_products (var0 two_products) (thirds_of k) <> 0).
Proof.
  split. { split.
    - intros [|[|[|k]]] Hk; cbn; lia.
    - intros [|[|[|k]]] Hk; cbn; lra.
    - intros [|[|j]] Hj; [| |lia]; cbn; lra. }
  split; [apply flat_valid; lia|]. split; [reflexivity|].
  split. { split; cbn; intros; try lia; try lra; try reflexivity; try discriminate.
    destruct h as [|[|h]]; cbn; lra. }
  split; [reflexivity|]. split; [reflexivity|].
  split. { intros [|[|j]] Hj; [exists 0%nat|exists 2%nat|lia]; cbn; split; try lia; reflexivity. }
  split; [apply flat_good|].
  intros k. change (var0 two_products) with (fun _ : nat => 0). unfold two_products. rewrite flat_lamda by (destruct k as [|[|[|k]]]; cbn; lia). cbn [INR]. lra.
Qed.
