(** Property theorems about counterfactuals that change nothing (C160). *)
From Coq Require Import Reals Lra Lia ZArith List Bool Arith.
From Verif Require Import Base FltModel IterModel IterProofs DemandSpec DemandModel DemandProofs DemandShares SupplyModel SupplySpec SupplyProofs MarkupWitness WelfareModel
  WelfareSpec WelfareProofs ConvModel ConvProofs ConvRun EndoModel NullModel NullSpec NullProofs.
Import ListNotations.
Local Open Scope R_scope.

(** * C160 Counterfactuals that change nothing change nothing *)

(** Leaving arguments out is the same as giving what the data say. *)
Theorem C160_given solve iterate e cc firm ownership c bad avail mask :
  let M := e_market e in
  let p := Some (var0 M) in
  let s := Some (e_shares e) in
  let av := fun i => option_map (fun b j => indR (b j)) (avail i) in
  valid_market (fm M) -> data_columns M ->
  costs_method solve e None None = Some (c, bad) ->
  (forall delta i j, (j < mJ (fm M))%nat -> probabilities_method e p delta i j = probabilities_method e None delta i j) /\
  (forall delta j, (j < mJ (fm M))%nat -> shares_method e p delta j = shares_method e None delta j) /\
  (forall i, surplus_method e av mask p i = surplus_method e av mask None i) /\
  (forall q i, surplus_method e av mask (Some q) i = individual_surplus M av mask q i) /\
  total_surplus_method e av mask p = total_surplus_method e av mask None /\
  (forall c, prices_method solve iterate e cc firm ownership c p = prices_method solve iterate e cc firm ownership c None) /\
  (forall q, prices_method solve iterate e cc firm ownership (Some c) q = prices_method solve iterate e cc firm ownership None q) /\
  approximate_prices_method solve e firm ownership (Some c) = approximate_prices_method solve e firm ownership None /\
  (forall q, markups_method solve e q (Some c) = markups_method solve e q None) /\
  (forall c, markups_method solve e p c = markups_method solve e None c) /\
  (forall q r, profits_method solve e q r (Some c) = profits_method solve e q r None) /\
  (forall r c, profits_method solve e p r c = profits_method solve e None r c) /\
  (forall q c, profits_method solve e q s c = profits_method solve e q None c) /\
  hhi_method e firm s = hhi_method e firm None.
Proof.
  intros M p s av V D EC.
  assert (EC' : costs_method solve e None None = Some (c, bad)) by exact EC.
  split; [intros delta i j Hj; apply same_probabilities; assumption|].
  split; [intros delta j Hj; apply same_shares; assumption|].
  split; [intros i; apply surplus_unchanged; assumption|].
  split; [reflexivity|].
  split; [unfold total_surplus_method; apply sumn_ext; intros i Hi; f_equal; apply surplus_unchanged; assumption|].
  split; [reflexivity|].
  split; [intros q; unfold prices_method, costs_or_default; rewrite EC; reflexivity|].
  split; [unfold approximate_prices_method, costs_or_default; rewrite EC; reflexivity|].
  split; [intros q; unfold markups_method, costs_or_default; rewrite EC; reflexivity|].
  split; [reflexivity|].
  split; [intros q r; unfold profits_method, costs_or_default; rewrite EC; reflexivity|].
  repeat split; reflexivity.
Qed.
Print Assumptions C160_given.

(** What is computed from given values: ones for products of the same firm, markups and profits from prices, shares and costs, and weighted sums
    of surpluses. *)
Theorem C160_values solve e avail mask prices p s c f :
  (exists o, ownership_used e (Some f) None = Some o /\ forall j k, (f j = f k -> o j k = 1) /\ (f j <> f k -> o j k = 0)) /\
  (exists m, markups_method solve e (Some p) (Some c) = Some m /\ forall j, p j <> 0 -> m j * p j = p j - c j) /\
  (exists r, profits_method solve e (Some p) (Some s) (Some c) = Some r /\ forall j, r j = p j * s j - c j * s j) /\
  total_surplus_method e avail mask prices = sumn (fI (e_market e)) (fun i => fw (e_market e) i * surplus_method e avail mask prices i).
Proof.
  split; [|split; [|split]].
  - eexists. split; [reflexivity|]. intros j k. unfold built_ownership. destruct (Z.eqb_spec (f j) (f k)); split; intros; [reflexivity|contradiction|contradiction|reflexivity].
  - eexists. split; [reflexivity|]. intros j Hp. cbn [fst]. field. exact Hp.
  - eexists. split; [reflexivity|]. intros j. cbn [fst]. ring.
  - unfold total_surplus_method. apply sumn_ext. intros i _. ring.
Qed.
Print Assumptions C160_values.

(** So is giving the firm IDs of data without ownership matrices, and giving the ownership matrices of data, whatever firm IDs come with them. *)
Theorem C160_owners solve iterate e cc c p :
  (forall f, e_ownership e = None -> e_firm e = Some f ->
    costs_method solve e (Some f) None = costs_method solve e None None /\
    approximate_prices_method solve e (Some f) None c = approximate_prices_method solve e None None c /\
    prices_method solve iterate e cc (Some f) None c p = prices_method solve iterate e cc None None c p /\
    forall s, hhi_method e (Some f) s = hhi_method e None s) /\
  (forall o f, e_ownership e = Some o ->
    costs_method solve e f (Some o) = costs_method solve e None None /\
    approximate_prices_method solve e f (Some o) c = approximate_prices_method solve e None None c /\
    prices_method solve iterate e cc f (Some o) c p = prices_method solve iterate e cc None None c p).
Proof.
  split.
  - intros f E1 E2. unfold costs_method, approximate_prices_method, prices_method, hhi_method, ownership_used. rewrite E1, E2. repeat split; reflexivity.
  - intros o f E1. unfold costs_method, approximate_prices_method, prices_method, ownership_used. rewrite E1. repeat split; reflexivity.
Qed.
Print Assumptions C160_owners.

(** Shares at observed prices are the observed ones. *)
Theorem C160_shares e j : valid_market (fm (e_market e)) -> data_columns (e_market e) -> reproduces e -> (j < mJ (fm (e_market e)))%nat ->
  shares_method e None None j = e_shares e j /\ shares_method e (Some (var0 (e_market e))) None j = e_shares e j.
Proof.
  intros V D RP Hj. rewrite (same_shares e V D j None Hj). split; apply RP; exact Hj.
Qed.
Print Assumptions C160_shares.

(** Without changes of ownership, approximate prices are the observed ones, whatever the linear solver does. *)
Theorem C160_approximate solve e firm ownership o :
  ownership_used e firm ownership = Some o -> ownership_used e None None = Some o ->
  exists p, approximate_prices_method solve e firm ownership None = Some p /\ forall j, p j = var0 (e_market e) j.
Proof. exact (approximate_unchanged solve e firm ownership o). Qed.
Print Assumptions C160_approximate.

(** With symmetric ownership that has ones on its diagonal, equilibrium prices are the observed ones too, whether or not costs are constant: all
    three routines converge to them. *)
Theorem C160_prices solve e cc firm ownership o t n scheme factor b :
  let M := e_market e in let J := mJ (fm M) in
  valid_market (fm M) -> data_columns M -> reproduces e -> exact_solver J solve ->
  ownership_used e firm ownership = Some o -> ownership_used e None None = Some o ->
  (forall j k, (j < J)%nat -> (k < J)%nat -> o j k = o k j) -> (forall j, (j < J)%nat -> o j j = 1) ->
  (forall j, (j < J)%nat -> lamda_at M (var0 M) j <> 0) ->
  snd (compute_costs solve M o (e_shares e)) = false ->
  sensible t -> (2 <= n)%nat ->
  let same := fun iterate : routine =>
    exists out, prices_method solve iterate e cc firm ownership None None = Some out /\ o_x out = flat J (var0 M) /\ o_converged out = true in
  same (fun f x => simple_iterator f t n x) /\ same (fun f x => option_map q_out (squarem_iterator f t n scheme factor b x)) /\
  same (fun _ x => Some (return_iterator x)).
Proof.
  intros M J V D RP HS EO E0 Sym Dg HL HB T Hn same.
  assert (H : forall iterate, stays iterate -> same iterate) by (intros iterate ST; exact (prices_unchanged solve iterate e cc firm ownership o V D RP ST HS EO E0 Sym Dg HL HB)).
  split; [apply H, simple_stays; assumption|]. split; [apply H, squarem_stays; assumption|]. apply H, return_stays.
Qed.
Print Assumptions C160_prices.

(** Mean utilities that reproduce shares are returned as they are by compute_delta. *)
Theorem C160_delta e safe bounds t n scheme factor b :
  let M := e_market e in let J := mJ (fm M) in
  valid_market (fm M) -> valid_agents (agents_with M (compute_mu M (X2_0 M))) -> reproduces e ->
  (forall j, (j < J)%nat -> 0 < e_shares e j) ->
  match fst bounds with Some lb => 0 < lb /\ forall j, (j < J)%nat -> lb < e_shares e j | None => True end ->
  match snd bounds with Some ub => 0 < ub /\ forall j, (j < J)%nat -> e_shares e j < ub | None => True end ->
  sensible t -> (2 <= n)%nat ->
  let same := fun iterate : routine =>
    exists out, delta_method iterate e safe bounds = Some out /\ o_x out = flat J (delta0 M) /\ o_converged out = true in
  same (fun f x => simple_iterator f t n x) /\ same (fun f x => option_map q_out (squarem_iterator f t n scheme factor b x)) /\
  same (fun _ x => Some (return_iterator x)).
Proof.
  intros M J V VA RP HP HL HU T Hn same.
  assert (H : forall iterate, stays iterate -> same iterate) by (intros iterate ST; exact (delta_unchanged iterate e safe bounds V VA RP ST HP HL HU)).
  split; [apply H, simple_stays; assumption|]. split; [apply H, squarem_stays; assumption|]. apply H, return_stays.
Qed.
Print Assumptions C160_delta.

(** None of the conditions on ownership can be dropped: with ownership matrices that are not symmetric in the data, observed prices are not a
    fixed point, although costs are those that observed prices imply, and the first evaluation moves prices away from them. *)
Theorem C160_prices_refuted :
  exists solve e o, let M := e_market e in let J := mJ (fm M) in
    valid_market (fm M) /\ data_columns M /\ reproduces e /\ exact_solver J solve /\ e_ownership e = Some o /\
    (forall j, (j < J)%nat -> o j j = 1) /\ (forall j k, o j k = 0 \/ o j k = 1) /\
    (forall j, (j < J)%nat -> lamda_at M (var0 M) j <> 0) /\ snd (compute_costs solve M o (e_shares e)) = false /\
    forall cc t, exists out, prices_method solve (fun f x => simple_iterator f t 1 x) e cc None None None None = Some out /\ o_x out <> flat J (var0 M).
Proof.
  exists cramer, (free_data None (Some one_sided)), one_sided. cbn [e_market e_ownership e_shares free_data]. cbv zeta.
  destruct (free_solution one_sided ltac:(reflexivity) ltac:(reflexivity) ltac:(unfold one_sided; cbn; lra)) as [B _].
  split; [apply (flat_valid 2 (fun _ => 1)); lia|]. split; [exact free_columns|]. split; [apply free_reproduces|]. split; [exact cramer_exact|].
  split; [reflexivity|]. split; [intros [|[|j]] Hj; [reflexivity|reflexivity|cbn in Hj; lia]|].
  split; [intros j k; unfold one_sided; destruct (Nat.eqb j 1 && Nat.eqb k 0)%bool; [left|right]; reflexivity|].
  split; [exact free_lamda|]. split; [exact B|].
  intros cc t. unfold prices_method, costs_or_default, costs_method. cbn [ownership_used free_data e_ownership option_map e_market e_shares].
  assert (A := asymmetric_moves cc). cbv zeta in A. cbn [e_supply e_shares free_data] in A.
  destruct (compute_costs cramer free_market one_sided (fun _ => / 3)) as [c bad] eqn:EC. cbn [fst] in A.
  unfold simple_iterator. cbn [simple_loop]. unfold evaluate, prices_function. cbn [e_market e_supply e_shares free_data]. rewrite flat_finite.
  cbn [fst snd]. unfold all_finite. rewrite !flat_finite. cbn [negb andb Nat.leb orb]. eexists. split; [reflexivity|]. cbn [o_x].
  intros F. apply A. change (mJ (fm free_market)) with 2%nat in F. unfold flat in F at 1 3. cbn [seq map] in F. injection F as F0 F1. exact F0.
Qed.
Print Assumptions C160_prices_refuted.

(** When data have both firm IDs and ownership matrices, giving the unchanged firm IDs is not the same as giving nothing. *)
Theorem C160_owners_refuted :
  exists solve e f, let M := e_market e in
    valid_market (fm M) /\ data_columns M /\ reproduces e /\ exact_solver (mJ (fm M)) solve /\ e_firm e = Some f /\
    exists c c', costs_method solve e None None = Some (c, false) /\ costs_method solve e (Some f) None = Some (c', false) /\ c 0%nat <> c' 0%nat.
Proof.
  exists cramer, (free_data (Some (fun _ => 0%Z)) (Some (fun j k => if Nat.eqb j k then 1 else 0))), (fun _ => 0%Z). cbv zeta.
  split; [apply (flat_valid 2 (fun _ => 1)); lia|]. split; [exact free_columns|]. split; [apply free_reproduces|]. split; [exact cramer_exact|].
  split; [reflexivity|]. unfold costs_method. cbn [ownership_used free_data e_ownership option_map e_market e_shares].
  destruct (free_solution (fun j k => if Nat.eqb j k then 1 else 0) ltac:(reflexivity) ltac:(reflexivity) ltac:(cbn; lra)) as [B [C _]].
  destruct (free_solution (built_ownership (fun _ => 0%Z)) ltac:(reflexivity) ltac:(reflexivity) ltac:(cbn; lra)) as [B' [C' _]].
  destruct (compute_costs cramer free_market (fun j k => if Nat.eqb j k then 1 else 0) (fun _ => / 3)) as [c b].
  destruct (compute_costs cramer free_market (built_ownership (fun _ => 0%Z)) (fun _ => / 3)) as [c' b']. cbn [fst snd] in *. subst b b'.
  exists c, c'. split; [reflexivity|]. split; [reflexivity|]. rewrite C, C'. cbn. lra.
Qed.
Print Assumptions C160_owners_refuted.

(** Any firm IDs give positive HHI.  Data with ownership matrices but without firm IDs, however, give zero. *)
Theorem C160_hhi e f s : (0 < mJ (fm (e_market e)))%nat ->
  (forall j, (j < mJ (fm (e_market e)))%nat -> 0 < match s with Some s => s j | None => e_shares e j end) -> 0 < hhi_method e (Some f) s.
Proof. exact (hhi_positive e f s). Qed.
Print Assumptions C160_hhi.
Theorem C160_hhi_refuted :
  exists e, valid_market (fm (e_market e)) /\ reproduces e /\ ownership_used e None None <> None /\
    (forall j, (j < mJ (fm (e_market e)))%nat -> 0 < e_shares e j) /\ hhi_method e None None = 0 /\ forall f, 0 < hhi_method e (Some f) None.
Proof.
  exists (free_data None (Some (fun _ _ => 1))). split; [apply (flat_valid 2 (fun _ => 1)); lia|]. split; [apply free_reproduces|].
  split; [discriminate|]. split; [intros j _; cbn; lra|]. split; [unfold hhi_method; cbn [free_data e_firm]; ring|].
  intros f. apply hhi_positive; [cbn; lia|]. intros j _. cbn. lra.
Qed.
Print Assumptions C160_hhi_refuted.

(** The hypotheses hold for two firms whose costs fall with shares. *)
Example C160_applies :
  exists e f o t n, let M := e_market e in let J := mJ (fm M) in
    valid_market (fm M) /\ data_columns M /\ reproduces e /\ exact_solver J cramer /\ e_firm e = Some f /\ e_ownership e = None /\
    ownership_used e (Some f) None = Some o /\ ownership_used e None None = Some o /\ f 0%nat <> f 1%nat /\
    (forall j k, (j < J)%nat -> (k < J)%nat -> o j k = o k j) /\ (forall j, (j < J)%nat -> o j j = 1) /\
    (forall j, (j < J)%nat -> lamda_at M (var0 M) j <> 0) /\ snd (compute_costs cramer M o (e_shares e)) = false /\ sensible t /\ (2 <= n)%nat /\
    valid_agents (agents_with M (compute_mu M (X2_0 M))) /\ (forall j, (j < J)%nat -> 0 < e_shares e j).
Proof.
  exists (free_data (Some Z.of_nat) None), Z.of_nat, (built_ownership Z.of_nat), (mk_tol (Num 1) (Num 0) infinity_norm), 5%nat. cbv zeta.
  split; [apply (flat_valid 2 (fun _ => 1)); lia|]. split; [exact free_columns|]. split; [apply free_reproduces|]. split; [exact cramer_exact|].
  do 4 (split; [reflexivity|]). split; [discriminate|].
  split; [intros j k _ _; unfold built_ownership; rewrite Z.eqb_sym; reflexivity|].
  split; [intros j _; unfold built_ownership; rewrite Z.eqb_refl; reflexivity|].
  split; [exact free_lamda|]. split; [apply free_solution; [reflexivity|reflexivity|cbn; lra]|].
  split; [apply norm_sensible; lra|]. split; [lia|].
  split; [split; [intros i _; cbn; lra|exists 0%nat; cbn; split; [lia|lra]]|]. intros j _. cbn. lra.
Qed.
