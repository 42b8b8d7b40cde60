(** Proofs about replacing prices and shares in all markets. *)
From Coq Require Import Reals Lra Lia ZArith String List Bool Arith Permutation.
From Verif Require Import Base BasicsModel BasicsSpec BasicsProofs SchedModel SchedSpec SchedProofs DemandModel DemandProofs SupplyModel SupplySpec SupplyProofs EndoModel EndoSpec EndoProofs ReplaceModel ReplaceSpec.
Import ListNotations.
Local Open Scope nat_scope.

Section Assembled.
  Context {X S M E : Type}.
  Variable market_rows : Z -> list nat.
  Variable f : Z -> @market_output X S M E.

  Lemma assembled_row i t q d : index_of i (market_rows t) = Some q -> q < length (out_rows (f t)) ->
    forall order, NoDup order -> (forall t', In t' order -> t' <> t -> index_of i (market_rows t') = None) ->
    forall a, (In t order \/ rows a i = nth q (out_rows (f t)) d) ->
    rows (assemble market_rows a (generate_items order f)) i = nth q (out_rows (f t)) d.
  Proof.
    intros Q L. induction order as [|t0 order IH]; intros ND H a C; cbn [generate_items map assemble fold_left].
    - destruct C as [[]|C]. exact C.
    - inversion ND; subst. apply IH; [assumption|intros t' I; apply H; right; exact I|].
      cbn [assemble_one rows]. unfold scatter. destruct (Z.eq_dec t0 t) as [->|N].
      + right. rewrite Q. apply nth_indep. exact L.
      + rewrite (H t0 (or_introl eq_refl) N). destruct C as [[->|C]|C]; [congruence|left; exact C|right; exact C].
  Qed.
  Lemma assembled_errors order : forall a, errors (assemble market_rows a (generate_items order f)) = errors a ++ flat_map (fun t => out_errors (f t)) order.
  Proof.
    induction order as [|t order IH]; intros a; cbn [generate_items map assemble fold_left flat_map]; [rewrite app_nil_r; reflexivity|].
    refine (eq_trans (IH _) _). cbn [assemble_one errors]. rewrite <- app_assoc. reflexivity.
  Qed.
  Lemma assembled_dicts order t : NoDup order -> forall a, In t order ->
    stats (assemble market_rows a (generate_items order f)) t = Some (out_stats (f t)) /\
    micro (assemble market_rows a (generate_items order f)) t = Some (out_micro (f t)).
  Proof.
    assert (Out : forall order, ~ In t order -> forall a, stats (assemble market_rows a (generate_items order f)) t = stats a t /\ micro (assemble market_rows a (generate_items order f)) t = micro a t).
    { clear. induction order as [|t0 order IH]; intros N a; cbn [generate_items map assemble fold_left]; [split; reflexivity|].
      destruct (IH (fun I => N (or_intror I)) (assemble_one market_rows a (t0, f t0))) as [A B]. split; [refine (eq_trans A _)|refine (eq_trans B _)]; cbn [assemble_one stats micro]; unfold dict_set;
        destruct (Z.eqb_spec t t0) as [->|]; try reflexivity; exfalso; apply N; left; reflexivity. }
    induction order as [|t0 order IH]; intros ND a I; [destruct I|]. inversion ND; subst. cbn [generate_items map assemble fold_left].
    destruct I as [->|I]; [|apply IH; assumption].
    destruct (Out order H1 (assemble_one market_rows a (t, f t))) as [A B]. split; [refine (eq_trans A _)|refine (eq_trans B _)]; cbn [assemble_one stats micro]; unfold dict_set; rewrite Z.eqb_refl; reflexivity.
  Qed.
End Assembled.

Lemma rank_position ids i : position ids i = rank ids i.
Proof. reflexivity. Qed.

Lemma rank_lt ids i : i < length ids -> rank ids i < length (rows_of ids (nth i ids 0%Z)) /\ nth (rank ids i) (rows_of ids (nth i ids 0%Z)) 0 = i.
Proof. intros H. apply index_of_lt. apply index_of_rows. exact H. Qed.

Section Replace.
  Variable S : simulation.
  Hypothesis C : consistent S.
  Variable share_errors : Z -> (nat -> R) -> list (list nat).
  Variables (r : routine) (constant gradients : bool) (c p : list R) (order : list Z).
  Hypothesis A : arrivals S order.
  Let f := endogenous_market S share_errors r constant gradients c p.
  Let a := assemble (s_rows S) nothing_yet (generate_items order f).
  Let computed t := r (mJ (fm (s_market S t)))
    (endogenous_contraction constant (s_market S t) (s_ownership S t) (s_supply S t) (s_shares S t) (in_market S t (fun i => nth i c 0%R)))
    (in_market S t (fun i => nth i p 0%R)).
  Let x t := fst (fst (computed t)).

  Lemma s_rows_of t : In t (s_ids S) -> s_rows S t = rows_of (s_ids S) t.
  Proof. apply market_indices_rows. apply C. Qed.

  Lemma market_output t : In t (s_ids S) -> 
    let M := s_market S t in
    let c' := simulated_costs constant M (s_supply S t) (s_shares S t) (in_market S t (fun i => nth i c 0%R)) (x t) in
    f t = {| out_rows := map (fun j => mk_product (x t j) (shares_at M (x t) j) (update_delta M (x t) j) (c' j)) (seq 0 (mJ (fm M)));
             out_stats := snd (fst (computed t));
             out_micro := if gradients then Some (fun f => norm_of (profit_gradients M (s_firm S t) (s_ownership S t) c' (x t) f)) else None;
             out_errors := (map PricesNumerical (snd (computed t)) ++ (if converged (snd (fst (computed t))) then [] else [PricesConvergence])) ++ map SharesNumerical (share_errors t (x t)) |}.
  Proof.
    intros I. cbv zeta. unfold f, endogenous_market. rewrite (s_rows_of t I).
    change (gather c (rows_of (s_ids S) t)) with (in_market S t (fun i => nth i c 0%R)). change (gather p (rows_of (s_ids S) t)) with (in_market S t (fun i => nth i p 0%R)).
    fold (computed t). unfold x. destruct (computed t) as [[y st] e]. reflexivity.
  Qed.

  Lemma replaced_row i : i < length (s_ids S) ->
    let t := nth i (s_ids S) 0%Z in let M := s_market S t in let j := rank (s_ids S) i in
    rows a i = mk_product (x t j) (shares_at M (x t) j) (update_delta M (x t) j)
      (simulated_costs constant M (s_supply S t) (s_shares S t) (in_market S t (fun i => nth i c 0%R)) (x t) j).
  Proof.
    intros Hi. cbv zeta. set (t := nth i (s_ids S) 0%Z). assert (I : In t (s_ids S)) by (apply nth_In; exact Hi).
    destruct (rank_lt (s_ids S) i Hi) as [L E]. fold t in L, E.
    assert (LJ : rank (s_ids S) i < mJ (fm (s_market S t))) by (rewrite (proj2 C t I); exact L).
    unfold a. rewrite (assembled_row (s_rows S) f i t (rank (s_ids S) i) (mk_product 0 0 0 0)).
    - rewrite (market_output t I). cbn [out_rows].
      rewrite (nth_indep _ _ (mk_product (x t 0) (shares_at (s_market S t) (x t) 0) (update_delta (s_market S t) (x t) 0) (simulated_costs constant (s_market S t) (s_supply S t) (s_shares S t) (in_market S t (fun i => nth i c 0%R)) (x t) 0)))
        by (rewrite map_length, seq_length; exact LJ).
      rewrite (map_nth (fun j => mk_product (x t j) (shares_at (s_market S t) (x t) j) (update_delta (s_market S t) (x t) j) (simulated_costs constant (s_market S t) (s_supply S t) (s_shares S t) (in_market S t (fun i => nth i c 0%R)) (x t) j))).
      rewrite seq_nth by exact LJ. reflexivity.
    - rewrite (s_rows_of t I). apply index_of_rows. exact Hi.
    - rewrite (market_output t I). cbn [out_rows]. rewrite map_length, seq_length. exact LJ.
    - apply A.
    - intros t' I' N. rewrite (s_rows_of t') by (apply A; exact I'). apply index_of_none. intros K. apply rows_of_in in K. apply N. symmetry. apply K.
    - left. apply A. exact I.
  Qed.

  Lemma replaced_errors : errors a = flat_map (fun t => (map PricesNumerical (snd (computed t)) ++ (if converged (snd (fst (computed t))) then [] else [PricesConvergence])) ++ map SharesNumerical (share_errors t (x t))) order.
  Proof.
    unfold a. rewrite (assembled_errors (s_rows S) f). cbn [errors nothing_yet app]. rewrite !flat_map_concat_map. f_equal. apply map_ext_in. intros t I.
    rewrite (market_output t) by (apply A; exact I). reflexivity.
  Qed.
  Lemma replaced_stats t : In t (s_ids S) -> stats a t = Some (snd (fst (computed t))).
  Proof.
    intros I. unfold a. rewrite (proj1 (assembled_dicts (s_rows S) f order t (proj1 A) nothing_yet (proj2 (proj2 A t) I))). rewrite (market_output t I). reflexivity.
  Qed.
  Lemma replaced_norms t : In t (s_ids S) -> micro a t = Some (if gradients then Some (fun g => norm_of (profit_gradients (s_market S t) (s_firm S t) (s_ownership S t)
     (simulated_costs constant (s_market S t) (s_supply S t) (s_shares S t) (in_market S t (fun i => nth i c 0%R)) (x t)) (x t) g)) else None).
  Proof.
    intros I. unfold a. rewrite (proj2 (assembled_dicts (s_rows S) f order t (proj1 A) nothing_yet (proj2 (proj2 A t) I))). rewrite (market_output t I). reflexivity.
  Qed.
End Replace.

Lemma norm_nonneg l : (0 <= norm_of l)%R.
Proof. induction l as [|y l IH]; cbn; [lra|]. apply Rle_trans with (Rabs y); [apply Rabs_pos|apply Rmax_l]. Qed.
Lemma norm_bound l y : In y l -> (Rabs y <= norm_of l)%R.
Proof. induction l as [|z l IH]; intros I; [destruct I|]. cbn. destruct I as [->|I]; [apply Rmax_l|]. eapply Rle_trans; [apply IH; exact I|apply Rmax_r]. Qed.
Lemma norm_attained l : l <> [] -> exists y, In y l /\ norm_of l = Rabs y.
Proof.
  induction l as [|z l IH]; intros N; [congruence|]. cbn. destruct l as [|w l].
  - exists z. split; [left; reflexivity|]. cbn. rewrite Rmax_left by apply Rabs_pos. reflexivity.
  - destruct (IH ltac:(discriminate)) as (y & I & E). rewrite E. unfold Rmax. destruct (Rle_dec (Rabs z) (Rabs y)); [exists y; split; [right; exact I|reflexivity]|exists z; split; [left; reflexivity|reflexivity]].
Qed.

(** Which calls are refused. *)
Lemma not_refused S share_errors default order costs prices iteration constant gradients behavior :
  (exists why, replace_endogenous S share_errors default order costs prices iteration constant gradients behavior = Refused why) <->
  ~ ((match costs with Some c => length c = length (s_ids S) | None => s_formulated S = true end) /\
     (match prices with Some p => length p = length (s_ids S) | None => True end) /\ iteration <> NotIteration /\ (behavior = "raise" \/ behavior = "warn")%string).
Proof.
  assert (F : forall b r e why, finish b r e <> Refused why) by (intros b r e why; unfold finish; destruct e; [discriminate|]; destruct (String.eqb b "raise"); discriminate).
  assert (K : known_behavior behavior = true <-> (behavior = "raise" \/ behavior = "warn")%string).
  { unfold known_behavior. rewrite orb_true_iff, !String.eqb_eq. reflexivity. }
  unfold replace_endogenous, start_costs, start_prices, price_routine. split.
  - intros (why & Q) (H1 & H2 & H3 & H4). destruct costs as [c|]; [rewrite (proj2 (Nat.eqb_eq _ _) H1) in Q|rewrite H1 in Q];
      (destruct prices as [p|]; [rewrite (proj2 (Nat.eqb_eq _ _) H2) in Q|]); destruct iteration; try congruence; apply K in H4; rewrite H4 in Q; cbn [negb] in Q; exact (F _ _ _ _ Q).
  - intros N.
    destruct (match costs with Some c => if length c =? length (s_ids S) then inl c else inr CostsShape | None => if s_formulated S then inl (default_costs S) else inr CostsMissing end) as [c|why] eqn:E1; [|exists why; reflexivity].
    destruct (match prices with Some p => if length p =? length (s_ids S) then inl p else inr PricesShape | None => inl c end) as [p|why] eqn:E2; [|exists why; reflexivity].
    destruct (match iteration with DefaultIteration => inl default | AnIteration r => inl r | NotIteration => inr IterationType end) as [r|why] eqn:E3; [|exists why; reflexivity].
    destruct (known_behavior behavior) eqn:E4; [|exists ErrorBehavior; reflexivity]. exfalso. apply N. repeat split.
    + destruct costs as [c'|]; [destruct (Nat.eqb_spec (length c') (length (s_ids S))); [assumption|discriminate]|destruct (s_formulated S); [reflexivity|discriminate]].
    + destruct prices as [p'|]; [destruct (Nat.eqb_spec (length p') (length (s_ids S))); [assumption|discriminate]|exact I].
    + destruct iteration; congruence.
    + apply K. reflexivity.
Qed.

(** Resolved arguments. *)
Lemma resolved S share_errors default order costs prices iteration constant gradients behavior o :
  replace_endogenous S share_errors default order costs prices iteration constant gradients behavior = o -> (forall why, o <> Refused why) ->
  exists c p r, start_costs S costs = inl c /\ start_prices S c prices = inl p /\ price_routine default iteration = inl r /\
    let a := assemble (s_rows S) nothing_yet (generate_items order (endogenous_market S share_errors r constant gradients c p)) in
    o = finish behavior (mk_results (rows a) (stats a) (micro a)) (errors a).
Proof.
  unfold replace_endogenous. intros Q N. destruct (start_costs S costs) as [c|why]; [|exfalso; exact (N why (eq_sym Q))].
  destruct (start_prices S c prices) as [p|why] eqn:E; [|exfalso; exact (N why (eq_sym Q))]. destruct (price_routine default iteration) as [r|why] eqn:E'; [|exfalso; exact (N why (eq_sym Q))].
  destruct (negb (known_behavior behavior)); [exfalso; exact (N _ (eq_sym Q))|]. exists c, p, r. split; [reflexivity|]. split; [exact E|]. split; [reflexivity|]. symmetry. exact Q.
Qed.
Lemma finish_returned b r e r' d : finish b r e = Returned r' d -> r' = r /\ d = e.
Proof. unfold finish. destruct e as [|e0 e]; [intros Q; injection Q as <- <-; split; reflexivity|]. destruct (String.eqb b "raise"); [discriminate|]. intros Q; injection Q as <- <-; split; reflexivity. Qed.

Lemma default_costs_nth S i : i < length (s_ids S) ->
  nth i (default_costs S) 0%R = (let t := nth i (s_ids S) 0%Z in initial_costs (s_supply S t) (s_shares S t) (s_omega S t) (rank (s_ids S) i)).
Proof.
  intros H. unfold default_costs. cbv zeta.
  set (g := fun i => initial_costs (s_supply S (nth i (s_ids S) 0%Z)) (s_shares S (nth i (s_ids S) 0%Z)) (s_omega S (nth i (s_ids S) 0%Z)) (position (s_ids S) i)).
  change (nth i (map g (seq 0 (length (s_ids S)))) 0%R = g i).
  rewrite (nth_indep _ _ (g 0)) by (rewrite map_length, seq_length; exact H). rewrite map_nth, seq_nth by exact H. reflexivity.
Qed.

(** What a market computes, from values of all rows. *)
Definition computed (S : simulation) (r : routine) (constant : bool) (c p : nat -> R) (t : Z) : (nat -> R) * solver_stats * list (list nat) :=
  r (mJ (fm (s_market S t)))
    (endogenous_contraction constant (s_market S t) (s_ownership S t) (s_supply S t) (s_shares S t) (in_market S t c)) (in_market S t p).

Section Returned.
  Variable S : simulation.
  Variable share_errors : Z -> (nat -> R) -> list (list nat).
  Variables (default : routine) (order : list Z) (costs prices : option (list R)) (iteration : iteration_argument) (constant gradients : bool) (behavior : string).
  Hypothesis C : consistent S.
  Hypothesis A : arrivals S order.
  Variables (res : results) (d : list market_error).
  Hypothesis Q : replace_endogenous S share_errors default order costs prices iteration constant gradients behavior = Returned res d.

  Lemma returned : exists c p r,
    (match costs with
     | Some l => length l = length (s_ids S) /\ (forall i, c i = nth i l 0%R)
     | None => forall i, i < length (s_ids S) -> c i = (let t := nth i (s_ids S) 0%Z in initial_costs (s_supply S t) (s_shares S t) (s_omega S t) (rank (s_ids S) i))
     end) /\
    (match prices with Some l => length l = length (s_ids S) /\ (forall i, p i = nth i l 0%R) | None => p = c end) /\
    (match iteration with DefaultIteration => r = default | AnIteration r' => r = r' | NotIteration => False end) /\
    (forall i, i < length (s_ids S) ->
       let t := nth i (s_ids S) 0%Z in let M := s_market S t in let j := rank (s_ids S) i in let x := fst (fst (computed S r constant c p t)) in
       r_rows res i = mk_product (x j) (shares_at M x j) (update_delta M x j) (simulated_costs constant M (s_supply S t) (s_shares S t) (in_market S t c) x j)) /\
    (forall t, In t (s_ids S) -> r_stats res t = Some (snd (fst (computed S r constant c p t)))) /\
    d = flat_map (fun t => (map PricesNumerical (snd (computed S r constant c p t)) ++ (if converged (snd (fst (computed S r constant c p t))) then [] else [PricesConvergence])) ++ map SharesNumerical (share_errors t (fst (fst (computed S r constant c p t))))) order /\
    (forall t, In t (s_ids S) -> let x := fst (fst (computed S r constant c p t)) in
       r_norms res t = Some (if gradients then Some (fun g => norm_of (profit_gradients (s_market S t) (s_firm S t) (s_ownership S t)
         (simulated_costs constant (s_market S t) (s_supply S t) (s_shares S t) (in_market S t c) x) x g)) else None)).
  Proof.
    destruct (resolved _ _ _ _ _ _ _ _ _ _ _ Q ltac:(discriminate)) as (c & p & r & Ec & Ep & Er & F). cbv zeta in F. symmetry in F. apply finish_returned in F. destruct F as [-> ->].
    exists (fun i => nth i c 0%R), (fun i => nth i p 0%R), r. repeat match goal with |- _ /\ _ => split end.
    - unfold start_costs in Ec. destruct costs as [l|].
      + destruct (Nat.eqb_spec (length l) (length (s_ids S))) as [L|]; [|discriminate]. injection Ec as <-. split; [exact L|reflexivity].
      + destruct (s_formulated S); [|discriminate]. injection Ec as <-. intros i Hi. apply default_costs_nth. exact Hi.
    - unfold start_prices in Ep. destruct prices as [l|].
      + destruct (Nat.eqb_spec (length l) (length (s_ids S))) as [L|]; [|discriminate]. injection Ep as <-. split; [exact L|reflexivity].
      + injection Ep as <-. reflexivity.
    - unfold price_routine in Er. destruct iteration; congruence.
    - intros i Hi. exact (replaced_row S C share_errors r constant gradients c p order A i Hi).
    - intros t I. exact (replaced_stats S C share_errors r constant gradients c p order A t I).
    - exact (replaced_errors S C share_errors r constant gradients c p order A).
    - intros t I. exact (replaced_norms S C share_errors r constant gradients c p order A t I).
  Qed.
End Returned.

(** Raised or returned. *)
Lemma raise_iff S share_errors default order costs prices iteration constant gradients :
  let call := replace_endogenous S share_errors default order costs prices iteration constant gradients in
  (forall e, call "raise"%string = Raised e <-> exists r, call "warn"%string = Returned r e /\ e <> []) /\
  (forall r, (exists d, call "raise"%string = Returned r d) <-> call "warn"%string = Returned r []) /\
  (forall r d, call "raise"%string = Returned r d -> d = []) /\ (forall e, call "warn"%string <> Raised e).
Proof.
  cbv zeta. unfold replace_endogenous. destruct (start_costs S costs) as [c|why].
  2: { repeat split; try discriminate; intros (a & b); try discriminate; destruct b; discriminate. }
  destruct (start_prices S c prices) as [p|why].
  2: { repeat split; try discriminate; intros (a & b); try discriminate; destruct b; discriminate. }
  destruct (price_routine default iteration) as [r|why].
  2: { repeat split; try discriminate; intros (a & b); try discriminate; destruct b; discriminate. }
  change (negb (known_behavior "raise")) with false. change (negb (known_behavior "warn")) with false. cbv iota beta zeta.
  set (a := assemble _ _ _). unfold finish. destruct (errors a) as [|e0 e] eqn:Ee.
  - split; [|split; [|split]].
    + intros e. split; [discriminate|]. intros (r' & X & N). injection X as _ <-. congruence.
    + intros r'. split; [intros (d & X); injection X as <- <-; reflexivity|intros X; injection X as <-; exists []; reflexivity].
    + intros r' d X. injection X as _ <-. reflexivity.
    + discriminate.
  - change (String.eqb "raise" "raise") with true. change (String.eqb "warn" "raise") with false. cbv iota. split; [|split; [|split]].
    + intros e'. split; [intros X; injection X as <-; eexists; split; [reflexivity|discriminate]|intros (r' & X & N); injection X as _ <-; reflexivity].
    + intros r'. split; [intros (d & X); discriminate|discriminate].
    + discriminate.
    + discriminate.
Qed.

Lemma prodn_ones n : prodn n (fun _ => 1%R) = 1%R.
Proof. induction n as [|n IH]; cbn; [reflexivity|]. rewrite IH. ring. Qed.
Lemma simulated_constant constant M S shares0 c x j : constant = true \/ ~ costs_use_shares S -> simulated_costs constant M S shares0 c x j = c j.
Proof.
  intros H. unfold simulated_costs. destruct constant; [reflexivity|]. destruct H as [H|H]; [discriminate|]. unfold update_costs.
  assert (U : forall k, k < sK3 S -> uses (sX3 S k) = false) by (intros k Hk; destruct (uses (sX3 S k)) eqn:E; [exfalso; apply H; exists k; split; assumption|reflexivity]).
  destruct (stype S).
  - rewrite (sumn_ext (sK3 S) _ (fun _ => 0%R)) by (intros k Hk; rewrite (U k Hk); reflexivity). rewrite sumn_zero. ring.
  - rewrite (prodn_ext (sK3 S) _ (fun _ => 1%R)) by (intros k Hk; rewrite (U k Hk); reflexivity). rewrite prodn_ones. ring.
Qed.

Lemma norms_foc M firm costs x : valid_market (fm M) -> good_columns M x ->
  (forall g, norm_of (profit_gradients M firm (owns firm) costs x g) = 0%R) <->
  (forall k, k < mJ (fm M) -> derivable_pt_lim (fun t => firm_profit (mJ (fm M)) firm costs (shares_at M) (firm k) (upd x k t)) (x k) 0%R).
Proof.
  intros V G. split.
  - intros H k Hk. pose proof (norm_bound (profit_gradients M firm (owns firm) costs x (firm k)) (firm_profit_gradient M (owns firm) costs x k)) as B.
    assert (Z : firm_profit_gradient M (owns firm) costs x k = 0%R).
    { assert (I : In (firm_profit_gradient M (owns firm) costs x k) (profit_gradients M firm (owns firm) costs x (firm k))) by (apply in_map, firm_rows_in; auto).
      specialize (B I). rewrite (H (firm k)) in B. pose proof (Rabs_pos (firm_profit_gradient M (owns firm) costs x k)). 
      destruct (Req_dec (firm_profit_gradient M (owns firm) costs x k) 0%R) as [E|N]; [exact E|]. apply Rabs_pos_lt in N. lra. }
    rewrite <- Z. apply firm_gradient_exact; assumption.
  - intros H g. destruct (profit_gradients M firm (owns firm) costs x g) as [|y l] eqn:E; [reflexivity|].
    destruct (norm_attained (y :: l) ltac:(discriminate)) as (z & I & ->). rewrite <- E in I. unfold profit_gradients in I. apply in_map_iff in I. destruct I as (k & <- & I).
    apply firm_rows_in in I. destruct I as [Hk <-]. rewrite (uniqueness_limite _ _ _ _ (firm_gradient_exact M firm costs x k V G Hk) (H k Hk)). apply Rabs_R0.
Qed.

Definition share_costs : simulation :=
  mk_simulation [7%Z] [0] true (fun _ => flat_market 1 (fun _ => 1%R)) (fun _ => shares_supply) (fun _ _ => / 4)%R (fun _ _ => - / 4)%R (fun _ _ _ => 1%R) (fun _ _ => 0).
Lemma not_perfect :
  exists S order res d, consistent S /\ arrivals S order /\
    replace_endogenous S (fun _ _ => []) return_routine order None None (AnIteration return_routine) false true "raise" = Returned res d /\ d = [] /\
    p_price (r_rows res 0) <> p_cost (r_rows res 0) /\ p_price (r_rows res 0) = 0%R /\ p_cost (r_rows res 0) = (/ 4)%R /\ p_share (r_rows res 0) = (/ 2)%R.
Proof.
  assert (C : consistent share_costs) by (split; [exact (stable_argsort_correct [7]%Z)|intros t [<-|[]]; reflexivity]).
  assert (A : arrivals share_costs [7%Z]) by (split; [repeat constructor; intros []|intros t; cbn; tauto]).
  destruct (replace_endogenous share_costs (fun _ _ => []) return_routine [7%Z] None None (AnIteration return_routine) false true "raise") as [why|e|res d] eqn:Q; [discriminate|discriminate|].
  exists share_costs, [7%Z], res, d. split; [exact C|]. split; [exact A|]. split; [exact Q|].
  destruct (returned _ _ _ _ _ _ _ _ _ _ C A res d Q) as (c & p & r & Hc & -> & -> & Rw & _ & -> & _). split; [reflexivity|].
  specialize (Rw 0 ltac:(cbn; lia)). specialize (Hc 0 ltac:(cbn; lia)). cbv zeta in Rw, Hc.
  assert (E0 : c 0 = 0%R) by (rewrite Hc; unfold initial_costs, rank; cbn; lra).
  assert (Ec : in_market share_costs 7 c = (fun _ => 0%R)).
  { apply FunctionalExtensionality.functional_extensionality. intros k. unfold in_market. replace (nth k (rows_of (s_ids share_costs) 7) 0) with 0 by (cbn; destruct k as [|[|k]]; reflexivity). exact E0. }
  change (nth 0 (s_ids share_costs) 0%Z) with 7%Z in Rw. change (rank (s_ids share_costs) 0) with 0 in Rw. cbn [computed return_routine fst snd] in Rw. rewrite Ec in Rw.
  change (s_market share_costs 7) with (flat_market 1 (fun _ => 1%R)) in Rw.
  assert (Sh : shares_at (flat_market 1 (fun _ => 1%R)) (fun _ => 0%R) 0 = (/ 2)%R).
  { unfold shares_at, market_shares, agents_with. cbn [aI aw amu fI fw flat_market sumn].
    change (fst (probabilities_linear _ full_choice _ _ _) 0) with (probs (fm (flat_market 1 (fun _ => 1%R))) (update_delta (flat_market 1 (fun _ => 1%R)) (fun _ => 0%R)) (update_mu (flat_market 1 (fun _ => 1%R)) (fun _ => 0%R)) 0 0).
    rewrite flat_prob by lia. cbn. lra. }
  assert (Co : simulated_costs false (flat_market 1 (fun _ => 1%R)) (s_supply share_costs 7) (s_shares share_costs 7) (fun _ => 0%R) (fun _ => 0%R) 0 = (/ 4)%R).
  { unfold simulated_costs, update_costs, simulated_shares. cbn [share_costs s_supply s_shares shares_supply stype sK3 sX3 sgamma sumn uses ev]. rewrite Sh. lra. }
  rewrite Sh, Co in Rw. rewrite Rw. cbn [p_price p_cost p_share]. split; [lra|]. split; [reflexivity|]. split; reflexivity.
Qed.

Lemma exogenous_none numerical clipped conv formulated cost_errors type values :
  exogenous_errors numerical clipped conv formulated cost_errors type values = [] <->
  numerical = [] /\ (forall b, In b clipped -> b = false) /\ conv = true /\
  (formulated = true -> cost_errors = [] /\ (type = LogCosts -> forall c, In c values -> (0 < c)%R)).
Proof.
  assert (App : forall (l l' : list market_error), l ++ l' = [] <-> l = [] /\ l' = []).
  { intros l l'. split; [apply app_eq_nil|intros (-> & ->); reflexivity]. }
  assert (Ex : forall (T : Type) (g : T -> bool) l (e : market_error), (if existsb g l then [e] else []) = [] <-> forall b, In b l -> g b = false).
  { intros T g l e. destruct (existsb g l) eqn:E.
    - split; [discriminate|]. intros H. apply existsb_exists in E. destruct E as (b & I & G). rewrite (H b I) in G. discriminate.
    - split; [|reflexivity]. intros _ b I. destruct (g b) eqn:G; [|reflexivity]. assert (existsb g l = true) by (apply existsb_exists; exists b; split; assumption). congruence. }
  unfold exogenous_errors. rewrite !App, Ex. split.
  - intros (H1 & H2 & H3 & H4). split; [exact H1|]. split; [exact H2|]. split; [destruct conv; [reflexivity|discriminate]|].
    intros F. rewrite F in H4. apply App in H4. destruct H4 as [H4 H5]. split; [exact H4|]. intros Ty c I. rewrite Ty in H5. pose proof (proj1 (Ex R _ values NonpositiveCosts) H5 c I) as G. cbv beta in G.
    destruct (Rle_dec c 0); [discriminate|lra].
  - intros (H1 & H2 & H3 & H4). split; [exact H1|]. split; [exact H2|]. split; [rewrite H3; reflexivity|].
    destruct formulated; [|reflexivity]. destruct (H4 eq_refl) as [H5 H6]. apply App. split; [exact H5|]. destruct type; [reflexivity|]. apply Ex. intros c I. destruct (Rle_dec c 0) as [L|]; [|reflexivity].
    specialize (H6 eq_refl c I). lra.
Qed.
