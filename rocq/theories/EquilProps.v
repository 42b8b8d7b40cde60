(** Property theorems about equilibrium prices with plain logit demand: C128 and C129. *)
From Coq Require Import Reals ZArith Lra Lia List Bool Arith.
From Verif Require Import Base FltModel IterModel DemandModel DemandProofs SupplyModel SupplySpec SupplyProofs WelfareModel PostModel ConvModel.
From Verif Require Import EquilModel EquilSpec EquilMarket EquilMerger EquilWitness.
Import ListNotations.
Local Open Scope R_scope.

(** C128: there is exactly one Bertrand equilibrium, in which all markups exceed those of a firm without
    market share, and markups of products that are sold by the same firm are the same. *)
Theorem C128_one_equilibrium :
  forall M a costs ids, plain_logit M a ->
  exists p, bertrand (mJ (fm M)) (firm_ownership ids) costs (shares_at M) p /\
    (forall j, (j < mJ (fm M))%nat -> costs j + / a < p j) /\
    (forall j k, (j < mJ (fm M))%nat -> (k < mJ (fm M))%nat -> nth j ids 0%Z = nth k ids 0%Z ->
       p j - costs j = p k - costs k) /\
    (forall q, bertrand (mJ (fm M)) (firm_ownership ids) costs (shares_at M) q ->
       forall j, (j < mJ (fm M))%nat -> q j = p j).
Proof.
  intros M a costs ids L. destruct (equilibrium_exists M a L costs ids) as [p P]. exists p. split; [exact P|]. split; [|split].
  - intros j Hj. apply (equilibrium_margin M a L costs ids p j P Hj).
  - intros j k Hj Hk E. apply (equilibrium_common M a L costs ids p j k P Hj Hk E).
  - intros q Q j Hj. apply (equilibrium_unique M a L costs ids q p Q P j Hj).
Qed.
Print Assumptions C128_one_equilibrium.

(** C128: iterating on the zeta-markup equation leads to it from all starting prices. *)
Theorem C128_iterates_converge :
  forall M a costs ids p start, plain_logit M a ->
  bertrand (mJ (fm M)) (firm_ownership ids) costs (shares_at M) p ->
  prices_converge (mJ (fm M)) (fun n => Nat.iter n (price_contraction M (firm_ownership ids) costs) start) p.
Proof. intros M a costs ids p start L. exact (iterates_converge M a L costs ids p start). Qed.
Print Assumptions C128_iterates_converge.

(** C128: from prices of at least costs that the first step does not lower, prices rise in each step and
    never exceed those of the equilibrium. *)
Theorem C128_iterates_rise :
  forall M a costs ids p start, plain_logit M a ->
  bertrand (mJ (fm M)) (firm_ownership ids) costs (shares_at M) p ->
  (forall j, (j < mJ (fm M))%nat ->
     costs j <= start j <= price_contraction M (firm_ownership ids) costs start j) ->
  forall n j, (j < mJ (fm M))%nat ->
  let x := fun n => Nat.iter n (price_contraction M (firm_ownership ids) costs) start in
  x n j <= x (S n) j /\ x n j <= p j.
Proof.
  intros M a costs ids p start L P H n j Hj. cbv zeta. split.
  - apply (iterates_rise M a L costs ids start); try assumption; intros k Hk; apply H; assumption.
  - apply (rising_below M a L costs ids p start); try assumption; intros k Hk; apply H; assumption.
Qed.
Print Assumptions C128_iterates_rise.

(** C128: the simple routine, which is the default, reports convergence for all tolerances and starting
    prices if its budget is large enough, *)
Theorem C128_simple_routine_converges :
  forall M a costs ids prices atol rtol, plain_logit M a -> 0 < atol -> 0 <= rtol ->
  exists N, forall budget, (N < budget)%nat ->
  exists o, equilibrium_prices M (firm_ownership ids) costs (mk_tol (Num atol) (Num rtol) infinity_norm) budget prices = Some o /\
    o_converged o = true /\ (s_evaluations (o_st o) <= N)%nat.
Proof. intros M a costs ids prices atol rtol L. exact (routine_converges M a L costs ids prices atol rtol). Qed.
Print Assumptions C128_simple_routine_converges.

(** and prices that it reports to have converged are as close to the equilibrium as desired if the
    tolerance is small enough. *)
Theorem C128_simple_routine_accurate :
  forall M a costs ids prices p eta, plain_logit M a ->
  bertrand (mJ (fm M)) (firm_ownership ids) costs (shares_at M) p -> 0 < eta ->
  exists atol0, 0 < atol0 /\ forall atol budget o, 0 < atol <= atol0 ->
  equilibrium_prices M (firm_ownership ids) costs (mk_tol (Num atol) (Num 0) infinity_norm) budget prices = Some o ->
  o_converged o = true -> forall j, (j < mJ (fm M))%nat -> Rabs (column (o_x o) j - p j) <= eta.
Proof. intros M a costs ids prices p eta L. exact (routine_accurate M a L costs ids prices p eta). Qed.
Print Assumptions C128_simple_routine_accurate.

Example C128_applies :
  plain_logit two_products 1 /\ mJ (fm two_products) = 2%nat /\
  exists p, bertrand 2 (firm_ownership [1; 2]%Z) (fun j => INR j) (shares_at two_products) p /\ 2 < p 1%nat /\
    (forall j, (j < 2)%nat -> INR j <= INR j <= price_contraction two_products (firm_ownership [1; 2]%Z) (fun j => INR j) (fun j => INR j) j).
Proof.
  assert (L := two_products_plain). split; [exact L|]. split; [reflexivity|].
  destruct (C128_one_equilibrium two_products 1 (fun j => INR j) [1; 2]%Z L) as [p [P [G _]]]. exists p.
  split; [exact P|]. split; [specialize (G 1%nat (le_n 2)); cbn [INR] in G; rewrite Rinv_1 in G; lra|].
  intros j Hj. split; [apply Rle_refl|]. rewrite (contraction_is_next two_products 1 L) by exact Hj.
  assert (0 < EquilProofs.next (mJ (fm two_products)) (owner [1; 2]%Z) (at_cost two_products (fun j => INR j)) 1
                (margins (fun j => INR j) (fun j => INR j)) j); [|lra].
  apply EquilProofs.next_pos; [lra|apply at_cost_pos|]. intros k Hk. unfold margins. lra.
Qed.

(** C129: if firms merge, no equilibrium price falls, and prices of products whose firm acquired others
    rise. *)
Theorem C129_prices_rise :
  forall M a costs before after p q, plain_logit M a -> merger (mJ (fm M)) before after ->
  bertrand (mJ (fm M)) (firm_ownership before) costs (shares_at M) p ->
  bertrand (mJ (fm M)) (firm_ownership after) costs (shares_at M) q ->
  forall j, (j < mJ (fm M))%nat -> p j <= q j /\
    (forall k, (k < mJ (fm M))%nat -> nth j after 0%Z = nth k after 0%Z -> nth j before 0%Z <> nth k before 0%Z ->
       p j < q j).
Proof.
  intros M a costs before after p q L G P Q j Hj. split.
  - exact (merger_rises M a costs before after p q L G P Q j Hj).
  - intros k Hk S N. exact (merger_rises_strictly M a costs before after p q L G P Q j k Hj Hk S N).
Qed.
Print Assumptions C129_prices_rise.

(** C129: fewer consumers choose any product, products of firms that acquired none gain shares and
    profits, and consumer surplus falls. *)
Theorem C129_consumers_lose_rivals_gain :
  forall M a costs before after p q, plain_logit M a -> merger (mJ (fm M)) before after ->
  bertrand (mJ (fm M)) (firm_ownership before) costs (shares_at M) p ->
  bertrand (mJ (fm M)) (firm_ownership after) costs (shares_at M) q ->
  sumn (mJ (fm M)) (shares_at M q) <= sumn (mJ (fm M)) (shares_at M p) /\
  ((0 < mJ (fm M))%nat ->
   consumer_surplus M (fun _ => None) None q <= consumer_surplus M (fun _ => None) None p) /\
  (forall j, (j < mJ (fm M))%nat ->
   (forall k, (k < mJ (fm M))%nat -> nth j after 0%Z = nth k after 0%Z -> nth j before 0%Z = nth k before 0%Z) ->
   shares_at M p j <= shares_at M q j /\
   profits p (shares_at M p) costs j <= profits q (shares_at M q) costs j).
Proof.
  intros M a costs before after p q L G P Q. split; [|split].
  - exact (merger_outside M a costs before after p q L G P Q).
  - exact (merger_surplus M a costs before after p q L G P Q).
  - intros j Hj O. exact (merger_outsiders M a costs before after p q L G P Q j Hj O).
Qed.
Print Assumptions C129_consumers_lose_rivals_gain.

(** C129: a merger simulation, with costs that were recovered from observed prices under the original
    ownership and that starts from observed prices: prices rise in each step, and converge to the
    only equilibrium after the merger. *)
Theorem C129_merger_simulation :
  forall solve M a before after, plain_logit M a -> merger (mJ (fm M)) before after ->
  exact_solver (mJ (fm M)) solve ->
  let observed := shares_at M (var0 M) in
  let costs := fst (compute_costs solve M (firm_ownership before) observed) in
  snd (compute_costs solve M (firm_ownership before) observed) = false ->
  exists q, bertrand (mJ (fm M)) (firm_ownership after) costs (shares_at M) q /\
    let x := fun n => Nat.iter n (price_contraction M (firm_ownership after) costs) (var0 M) in
    prices_converge (mJ (fm M)) x q /\
    forall n j, (j < mJ (fm M))%nat -> var0 M j <= x n j /\ x n j <= x (S n) j /\ x n j <= q j.
Proof.
  intros solve M a before after L G S observed costs H.
  assert (P : bertrand (mJ (fm M)) (firm_ownership before) costs (shares_at M) (var0 M)).
  { apply costs_bertrand; try assumption.
    - apply (pl_valid M a L).
    - apply (plain_good M a L).
    - intros j _. unfold firm_ownership. rewrite Z.eqb_refl. reflexivity.
    - reflexivity. }
  destruct (equilibrium_exists M a L costs after) as [q Q]. exists q. split; [exact Q|]. cbv zeta. split.
  - exact (iterates_converge M a L costs after q (var0 M) Q).
  - intros n j Hj. exact (merger_iterates M a costs before after (var0 M) q L G P Q n j Hj).
Qed.
Print Assumptions C129_merger_simulation.

Example C129_applies :
  plain_logit two_products 1 /\ merger (mJ (fm two_products)) [1; 2]%Z [1; 1]%Z /\
  (exists p q, bertrand 2 (firm_ownership [1; 2]%Z) (fun _ => 0) (shares_at two_products) p /\
     bertrand 2 (firm_ownership [1; 1]%Z) (fun _ => 0) (shares_at two_products) q /\ p 0%nat < q 0%nat) /\
  exact_solver 2 diagonal_solver /\
  snd (compute_costs diagonal_solver two_products (firm_ownership [1; 2]%Z)
         (shares_at two_products (var0 two_products))) = false.
Proof.
  assert (L := two_products_plain). assert (G := two_products_merge).
  split; [exact L|]. split; [exact G|]. split; [|split; [exact diagonal_solver_exact|exact two_products_costs]].
  destruct (C128_one_equilibrium two_products 1 (fun _ => 0) [1; 2]%Z L) as [p [P _]].
  destruct (C128_one_equilibrium two_products 1 (fun _ => 0) [1; 1]%Z L) as [q [Q _]].
  exists p, q. split; [exact P|]. split; [exact Q|].
  apply (C129_prices_rise two_products 1 (fun _ => 0) [1; 2]%Z [1; 1]%Z p q L G P Q 0%nat) with (k := 1%nat); cbn; try lia; try reflexivity; discriminate.
Qed.
