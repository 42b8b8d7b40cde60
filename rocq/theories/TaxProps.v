(** Property theorems about changes in costs with plain logit demand: C138. *)
From Coq Require Import Reals ZArith Lra Lia List Bool Arith.
From Verif Require Import Base DemandModel SupplyModel SupplySpec SupplyProofs WelfareModel PostModel.
From Verif Require Import EquilSpec EquilWitness EquilProps TaxSpec TaxMarket.
Import ListNotations.
Local Open Scope R_scope.

(** C138: if costs of any products rise, fewer consumers choose a product in equilibrium, and consumer
    surplus falls if the scale of epsilon is one. *)
Theorem C138_consumers :
  forall M a before after ids p q, plain_logit M a ->
  (forall k, (k < mJ (fm M))%nat -> before k <= after k) ->
  bertrand (mJ (fm M)) (firm_ownership ids) before (shares_at M) p ->
  bertrand (mJ (fm M)) (firm_ownership ids) after (shares_at M) q ->
  sumn (mJ (fm M)) (shares_at M q) <= sumn (mJ (fm M)) (shares_at M p) /\
  (eps_scale (fm M) = 1 -> (0 < mJ (fm M))%nat ->
   consumer_surplus M (fun _ => None) None q <= consumer_surplus M (fun _ => None) None p).
Proof.
  intros M a before after ids p q L H P Q. split.
  - exact (inside_falls M a before after ids p q L H P Q).
  - exact (surplus_falls M a before after ids p q L H P Q).
Qed.
Print Assumptions C138_consumers.

(** C138: prices, shares and profits of products of firms whose costs are the same do not fall. *)
Theorem C138_rivals :
  forall M a before after ids p q, plain_logit M a ->
  (forall k, (k < mJ (fm M))%nat -> before k <= after k) ->
  bertrand (mJ (fm M)) (firm_ownership ids) before (shares_at M) p ->
  bertrand (mJ (fm M)) (firm_ownership ids) after (shares_at M) q ->
  forall j, (j < mJ (fm M))%nat -> firm_unaffected (mJ (fm M)) ids before after j ->
  p j <= q j /\ shares_at M p j <= shares_at M q j /\
  profits p (shares_at M p) before j <= profits q (shares_at M q) after j.
Proof. intros M a before after ids p q L H P Q. exact (rivals M a before after ids p q L H P Q). Qed.
Print Assumptions C138_rivals.

(** C138: a firm that is the only one whose costs rise passes on at most the rise of each product's cost,
    so that prices of its products whose costs are the same do not rise; the price of the product
    whose cost rises most does rise; and the firm's profits fall. *)
Theorem C138_own_firm :
  forall M a before after ids p q, plain_logit M a ->
  (forall k, (k < mJ (fm M))%nat -> before k <= after k) ->
  bertrand (mJ (fm M)) (firm_ownership ids) before (shares_at M) p ->
  bertrand (mJ (fm M)) (firm_ownership ids) after (shares_at M) q ->
  forall j, (j < mJ (fm M))%nat -> only_firm_affected (mJ (fm M)) ids before after j ->
  (forall k, (k < mJ (fm M))%nat -> nth k ids 0%Z = nth j ids 0%Z -> q k - p k <= after k - before k /\
     ((forall l, (l < mJ (fm M))%nat -> nth l ids 0%Z = nth j ids 0%Z -> after l - before l <= after k - before k) ->
      p k <= q k /\ (before k < after k -> p k < q k))) /\
  firm_sum (mJ (fm M)) ids j (profits q (shares_at M q) after)
  <= firm_sum (mJ (fm M)) ids j (profits p (shares_at M p) before).
Proof. intros M a before after ids p q L H P Q. exact (own_firm M a before after ids p q L H P Q). Qed.
Print Assumptions C138_own_firm.

(** C138: if all costs rise by the same amount, for example because of a tax, all prices rise by at most
    this amount, and profits of all firms fall. *)
Theorem C138_everyone :
  forall M a costs t ids p q, plain_logit M a -> 0 <= t ->
  bertrand (mJ (fm M)) (firm_ownership ids) costs (shares_at M) p ->
  bertrand (mJ (fm M)) (firm_ownership ids) (fun k => costs k + t) (shares_at M) q ->
  forall j, (j < mJ (fm M))%nat ->
  p j <= q j <= p j + t /\ (0 < t -> p j < q j) /\
  firm_sum (mJ (fm M)) ids j (profits q (shares_at M q) (fun k => costs k + t))
  <= firm_sum (mJ (fm M)) ids j (profits p (shares_at M p) costs).
Proof.
  intros M a costs t ids p q L T P Q.
  apply (everyone M a costs (fun k => costs k + t) ids p q L); try assumption; intros; [lra|reflexivity].
Qed.
Print Assumptions C138_everyone.

(** C138: a firm's profits are the difference between its markup and that of a firm without market
    share, for each consumer. *)
Theorem C138_profits :
  forall M a costs ids p j, plain_logit M a -> (j < mJ (fm M))%nat ->
  bertrand (mJ (fm M)) (firm_ownership ids) costs (shares_at M) p ->
  firm_sum (mJ (fm M)) ids j (profits p (shares_at M p) costs)
  = (p j - costs j - / a) * sumn (fI M) (fw M).
Proof. intros M a costs ids p j L. exact (firm_profits M a ids L costs p j). Qed.
Print Assumptions C138_profits.

Example C138_applies :
  plain_logit two_products 1 /\ eps_scale (fm two_products) = 1 /\
  let before := fun _ => 0 in let after := fun k => if Nat.eqb k 0 then 1 else 0 in
  (forall k, (k < 2)%nat -> before k <= after k) /\
  firm_unaffected 2 [1; 2]%Z before after 1 /\ only_firm_affected 2 [1; 2]%Z before after 0 /\
  exists p q, bertrand 2 (firm_ownership [1; 2]%Z) before (shares_at two_products) p /\
    bertrand 2 (firm_ownership [1; 2]%Z) after (shares_at two_products) q /\ p 0%nat < q 0%nat /\ p 1%nat <= q 1%nat.
Proof.
  assert (L := two_products_plain). split; [exact L|]. split; [reflexivity|]. cbv zeta.
  assert (H : forall k, (k < 2)%nat -> 0 <= (if Nat.eqb k 0 then 1 else 0)) by (intros k _; destruct (Nat.eqb k 0); lra).
  assert (U : firm_unaffected 2 [1; 2]%Z (fun _ => 0) (fun k => if Nat.eqb k 0 then 1 else 0) 1).
  { intros [|[|k]] Hk; cbn; [discriminate|reflexivity|lia]. }
  assert (O : only_firm_affected 2 [1; 2]%Z (fun _ => 0) (fun k => if Nat.eqb k 0 then 1 else 0) 0).
  { intros [|[|k]] Hk; cbn; [intros X; exfalso; apply X; reflexivity|reflexivity|lia]. }
  split; [exact H|]. split; [exact U|]. split; [exact O|].
  destruct (C128_one_equilibrium two_products 1 (fun _ => 0) [1; 2]%Z L) as [p [P _]].
  destruct (C128_one_equilibrium two_products 1 (fun k => if Nat.eqb k 0 then 1 else 0) [1; 2]%Z L) as [q [Q _]].
  exists p, q. split; [exact P|]. split; [exact Q|]. split.
  - destruct (C138_own_firm two_products 1 _ _ [1; 2]%Z p q L H P Q 0%nat (Nat.lt_0_2) O) as [X _].
    destruct (X 0%nat Nat.lt_0_2 eq_refl) as [_ Y]. apply Y.
    + intros [|[|l]] Hl E; cbn in *; try lia; try discriminate; lra.
    + cbn. lra.
  - apply (C138_rivals two_products 1 _ _ [1; 2]%Z p q L H P Q 1%nat (Nat.lt_1_2) U).
Qed.
