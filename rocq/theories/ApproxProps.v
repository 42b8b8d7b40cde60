(** Theorems about approximate prices with plain logit demand. *)
From Coq Require Import Reals ZArith Lra Lia List Bool Arith.
From Verif Require Import Base DemandModel DemandProofs SupplyModel SupplySpec SupplyProofs PostModel EquilSpec EquilMarket TaxSpec TaxMarket ApproxSpec ApproxProofs ApproxWitness.
Import ListNotations.
Local Open Scope R_scope.

(** C168: if one firm acquires others, approximate prices of its products are at least equilibrium prices, which are at least observed
    ones.  All are different for products of firms that merge. *)
Theorem C168_merging_firms : forall solve M a before after q j,
  plain_logit M a -> exact_solver (mJ (fm M)) solve -> merger (mJ (fm M)) before after -> only_merger (mJ (fm M)) before after j -> (j < mJ (fm M))%nat ->
  let observed := shares_at M (var0 M) in
  let costs := fst (compute_costs solve M (firm_ownership before) observed) in
  let approximate := compute_approximate_prices solve M (firm_ownership before) (firm_ownership after) observed None in
  snd approximate = false -> bertrand (mJ (fm M)) (firm_ownership after) costs (shares_at M) q ->
  q j <= fst approximate j /\
  (forall k, (k < mJ (fm M))%nat -> nth j after 0%Z = nth k after 0%Z -> nth j before 0%Z <> nth k before 0%Z -> var0 M j < q j < fst approximate j).
Proof. intros solve M a before after q j L S G One Hj observed costs approximate Ok Q. exact (merging M a L solve before after q S Ok Q G j Hj One). Qed.
Print Assumptions C168_merging_firms.

(** C168: approximate prices of products of all firms that acquire none, however many others do, are observed prices, and at most
    equilibrium prices. *)
Theorem C168_other_firms : forall solve M a before after q k,
  plain_logit M a -> exact_solver (mJ (fm M)) solve -> merger (mJ (fm M)) before after -> (k < mJ (fm M))%nat ->
  (forall l, (l < mJ (fm M))%nat -> nth k after 0%Z = nth l after 0%Z -> nth k before 0%Z = nth l before 0%Z) ->
  let observed := shares_at M (var0 M) in
  let costs := fst (compute_costs solve M (firm_ownership before) observed) in
  let approximate := compute_approximate_prices solve M (firm_ownership before) (firm_ownership after) observed None in
  snd approximate = false -> bertrand (mJ (fm M)) (firm_ownership after) costs (shares_at M) q ->
  fst approximate k = var0 M k /\ fst approximate k <= q k.
Proof.
  intros solve M a before after q k L S G Hk O observed costs approximate Ok Q. destruct (outsider M a L solve before after q S Ok Q G k Hk O) as [E H].
  split; [exact E|]. refine (Rle_trans _ _ _ (Req_le _ _ E) H).
Qed.
Print Assumptions C168_other_firms.

(** C168: if costs of one firm's products rise, approximate prices pass them on completely: they are at least equilibrium prices for
    this firm's products, and at most equilibrium prices for others. *)
Theorem C168_costs : forall solve M a ids costs q j,
  plain_logit M a -> exact_solver (mJ (fm M)) solve -> (j < mJ (fm M))%nat ->
  let observed := shares_at M (var0 M) in
  let recovered := compute_costs solve M (firm_ownership ids) observed in
  let approximate := fst (compute_approximate_prices solve M (firm_ownership ids) (firm_ownership ids) observed (Some costs)) in
  snd recovered = false -> (forall k, (k < mJ (fm M))%nat -> fst recovered k <= costs k) ->
  only_firm_affected (mJ (fm M)) ids (fst recovered) costs j -> bertrand (mJ (fm M)) (firm_ownership ids) costs (shares_at M) q ->
  forall k, (k < mJ (fm M))%nat -> approximate k = var0 M k + (costs k - fst recovered k) /\
    (nth k ids 0%Z = nth j ids 0%Z -> q k <= approximate k) /\ (nth k ids 0%Z <> nth j ids 0%Z -> approximate k <= q k).
Proof.
  intros solve M a ids costs q j L S Hj observed recovered approximate Ok Up Only Q k Hk.
  assert (P := ApproxProofs.recovered M a L solve ids S Ok). assert (E : approximate k = var0 M k + (costs k - fst recovered k)) by exact (cost_change M solve ids observed costs k).
  split; [exact E|]. split; intro H.
  - destruct (own_firm M a _ costs ids (var0 M) q L Up P Q j Hj Only) as [X _]. destruct (X k Hk H) as [Y _]. fold observed recovered in Y. lra.
  - assert (U : firm_unaffected (mJ (fm M)) ids (fst recovered) costs k) by (intros l Hl El; apply Only; [exact Hl|rewrite El; exact H]).
    destruct (rivals M a _ costs ids (var0 M) q L Up P Q k Hk U) as [X _]. rewrite E. assert (Ek : costs k = fst recovered k) by (apply Only; assumption). lra.
Qed.
Print Assumptions C168_costs.

(** C168: a tax per unit of all products is passed on completely by approximate prices, and at most completely by equilibrium prices. *)
Theorem C168_tax : forall solve M a ids t q,
  plain_logit M a -> exact_solver (mJ (fm M)) solve -> 0 <= t ->
  let observed := shares_at M (var0 M) in
  let recovered := compute_costs solve M (firm_ownership ids) observed in
  let costs := fun k => fst recovered k + t in
  let approximate := fst (compute_approximate_prices solve M (firm_ownership ids) (firm_ownership ids) observed (Some costs)) in
  snd recovered = false -> bertrand (mJ (fm M)) (firm_ownership ids) costs (shares_at M) q ->
  forall k, (k < mJ (fm M))%nat -> approximate k = var0 M k + t /\ var0 M k <= q k <= approximate k.
Proof.
  intros solve M a ids t q L S T observed recovered costs approximate Ok Q k Hk.
  assert (P := ApproxProofs.recovered M a L solve ids S Ok).
  assert (E : approximate k = var0 M k + t) by (refine (eq_trans (cost_change M solve ids observed costs k) _); unfold costs, recovered; ring).
  split; [exact E|]. rewrite E.
  destruct (everyone M a (fst recovered) costs ids (var0 M) q L) with (t := t) (j := k) as [X _]; try assumption; try exact X.
  - intros l Hl. unfold costs, recovered, observed. lra.
  - intros l Hl. reflexivity.
Qed.
Print Assumptions C168_tax.

(** Two of three firms merge, or a cost of one of them rises. *)
Example C168_applies :
  plain_logit three_products 1 /\ exact_solver 3 block_solver /\ merger 3 [1; 2; 3]%Z [1; 1; 3]%Z /\ only_merger 3 [1; 2; 3]%Z [1; 1; 3]%Z 0 /\
  (forall l, (l < 3)%nat -> nth 2 [1; 1; 3]%Z 0%Z = nth l [1; 1; 3]%Z 0%Z -> nth 2 [1; 2; 3]%Z 0%Z = nth l [1; 2; 3]%Z 0%Z) /\
  let observed := shares_at three_products (var0 three_products) in
  let recovered := compute_costs block_solver three_products (firm_ownership [1; 2; 3]%Z) observed in
  let approximate := compute_approximate_prices block_solver three_products (firm_ownership [1; 2; 3]%Z) (firm_ownership [1; 1; 3]%Z) observed None in
  let costs := fun k => fst recovered k + (if Nat.eqb k 0 then 1 else 0) in
  snd recovered = false /\ snd approximate = false /\
  (exists q, bertrand 3 (firm_ownership [1; 1; 3]%Z) (fst recovered) (shares_at three_products) q /\ var0 three_products 0%nat < q 0%nat < fst approximate 0%nat) /\
  only_firm_affected 3 [1; 2; 3]%Z (fst recovered) costs 0 /\ (forall k, (k < 3)%nat -> fst recovered k <= costs k) /\
  exists q, bertrand 3 (firm_ownership [1; 2; 3]%Z) costs (shares_at three_products) q.
Proof.
  assert (L := three_products_plain). assert (Ok := three_products_approximated None).
  split; [exact L|]. split; [exact block_solver_exact|]. split; [exact three_products_merge|]. split; [exact three_products_only|].
  split; [intros [|[|[|l]]] Hl E; try lia; try discriminate E; reflexivity|]. cbv zeta.
  split; [apply three_products_solved; discriminate|]. split; [exact Ok|]. split.
  - destruct (equilibrium_exists three_products 1 L (fst (compute_costs block_solver three_products (firm_ownership [1; 2; 3]%Z) (shares_at three_products (var0 three_products)))) [1; 1; 3]%Z) as [q Q].
    exists q. split; [exact Q|]. destruct (C168_merging_firms block_solver three_products 1 [1; 2; 3]%Z [1; 1; 3]%Z q 0%nat L block_solver_exact three_products_merge three_products_only ltac:(cbn; lia) Ok Q) as [_ H].
    apply (H 1%nat); [cbn; lia|reflexivity|discriminate].
  - split; [intros [|[|[|k]]] Hk N; try lia; try contradiction (N eq_refl); cbn [Nat.eqb]; apply Rplus_0_r|].
    split; [intros k _; destruct (Nat.eqb k 0); lra|]. apply (equilibrium_exists three_products 1 L).
Qed.
