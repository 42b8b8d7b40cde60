(** Property theorems about replacing prices and shares in all markets of a simulation (C158). *)
From Coq Require Import Reals Lra Lia ZArith String List Bool Arith Permutation.
From Verif Require Import Base BasicsModel BasicsSpec BasicsProofs SchedModel SchedSpec SchedProofs DemandModel DemandProofs SupplyModel SupplySpec SupplyProofs EndoModel EndoSpec EndoProofs ReplaceModel ReplaceSpec ReplaceProofs.
Import ListNotations.
Local Open Scope nat_scope.

(** * C158 replace_endogenous does in each market what its arguments say, and reports failures *)

(** Calls are refused exactly if costs or prices have the wrong number of values, costs are needed but not given, the iteration is not an
    [Iteration], or the error behavior is unknown. *)
Theorem C158_refused S share_errors default order costs prices iteration constant gradients behavior :
  (exists why, replace_endogenous S share_errors default order costs prices iteration constant gradients behavior = Refused why) <->
  ~ ((match costs with Some c => length c = length (s_ids S) | None => s_formulated S = true end) /\
     (match prices with Some p => length p = length (s_ids S) | None => True end) /\ iteration <> NotIteration /\ (behavior = "raise" \/ behavior = "warn")%string).
Proof. exact (not_refused S share_errors default order costs prices iteration constant gradients behavior). Qed.
Print Assumptions C158_refused.

(** In whatever order markets arrive, rows of results are those of their markets: prices that the routine returned for the market's function and
    starting values, shares and mean utilities at these prices, and costs. *)
Theorem C158_rows S share_errors default order costs prices iteration constant gradients behavior res d :
  consistent S -> arrivals S order ->
  replace_endogenous S share_errors default order costs prices iteration constant gradients behavior = Returned res d ->
  exists c p r,
    (match costs with
     | Some l => length l = length (s_ids S) /\ (forall i, c i = nth i l 0%R)
     | None => forall i, i < length (s_ids S) -> c i = (let t := nth i (s_ids S) 0%Z in initial_costs (s_supply S t) (s_shares S t) (s_omega S t) (rank (s_ids S) i))
     end) /\
    (match prices with Some l => length l = length (s_ids S) /\ (forall i, p i = nth i l 0%R) | None => p = c end) /\
    (match iteration with DefaultIteration => r = default | AnIteration r' => r = r' | NotIteration => False end) /\
    (let x := fun t => r (mJ (fm (s_market S t)))
                (endogenous_contraction constant (s_market S t) (s_ownership S t) (s_supply S t) (s_shares S t) (in_market S t c)) (in_market S t p) in
     (forall i, i < length (s_ids S) ->
        let t := nth i (s_ids S) 0%Z in let M := s_market S t in let j := rank (s_ids S) i in let xt := fst (fst (x t)) in
        r_rows res i = mk_product (xt j) (shares_at M xt j) (update_delta M xt j)
          (if constant then c i else update_costs (s_supply S t) (s_shares S t) (in_market S t c) (shares_at M xt) j)) /\
     (forall t, In t (s_ids S) -> r_stats res t = Some (snd (fst (x t)))) /\
     (forall e, In e d <-> exists t, In t (s_ids S) /\
        match e with
        | PricesNumerical m => In m (snd (x t))
        | PricesConvergence => converged (snd (fst (x t))) = false
        | SharesNumerical m => In m (share_errors t (fst (fst (x t))))
        | _ => False
        end)).
Proof.
  intros C A Q. destruct (returned S share_errors default order costs prices iteration constant gradients behavior C A res d Q) as (c & p & r & Hc & Hp & Hr & Rw & St & Er & _).
  exists c, p, r. split; [exact Hc|]. split; [exact Hp|]. split; [exact Hr|]. cbv zeta. split; [|split; [exact St|]].
  - intros i Hi. rewrite (Rw i Hi). cbv zeta. f_equal. unfold simulated_costs. destruct constant; [|reflexivity].
    unfold in_market. rewrite (proj2 (rank_lt (s_ids S) i Hi)). reflexivity.
  - intros e. rewrite Er, in_flat_map. split; intros (t & I & K); exists t; (split; [apply A; exact I|]); fold (computed S r constant c p t) in *.
    + apply in_app_or in K. destruct K as [K|K]; [|apply in_map_iff in K; destruct K as (m & <- & K); exact K].
      apply in_app_or in K. destruct K as [K|K]; [apply in_map_iff in K; destruct K as (m & <- & K); exact K|].
      destruct (converged (snd (fst (computed S r constant c p t)))) eqn:E; [destruct K|]. destruct K as [<-|[]]. reflexivity.
    + apply in_or_app. destruct e as [m| |m| | | | | |]; try contradiction; [left; apply in_or_app; left; apply in_map; exact K|left; apply in_or_app; right; rewrite K; left; reflexivity|right; apply in_map; exact K].
Qed.
Print Assumptions C158_rows.

(** Errors are raised exactly when they would be displayed; 'warn' changes nothing else, and 'raise' returns only results without errors. *)
Theorem C158_errors S share_errors default order costs prices iteration constant gradients :
  let call := replace_endogenous S share_errors default order costs prices iteration constant gradients in
  (forall e, call "raise"%string = Raised e <-> exists r, call "warn"%string = Returned r e /\ e <> []) /\
  (forall r, (exists d, call "raise"%string = Returned r d) <-> call "warn"%string = Returned r []) /\
  (forall r d, call "raise"%string = Returned r d -> d = []) /\ (forall e, call "warn"%string <> Raised e).
Proof. exact (raise_iff S share_errors default order costs prices iteration constant gradients). Qed.
Print Assumptions C158_errors.
(** In particular, by default all markets have converged. *)
Theorem C158_converged S share_errors default order costs prices iteration constant gradients res d :
  consistent S -> arrivals S order ->
  replace_endogenous S share_errors default order costs prices iteration constant gradients "raise" = Returned res d ->
  failures res order = 0 /\ (forall t, In t (s_ids S) -> exists s, r_stats res t = Some s /\ converged s = true).
Proof.
  intros C A Q. assert (D : d = []) by (apply (proj1 (proj2 (proj2 (raise_iff S share_errors default order costs prices iteration constant gradients))) res d Q)). subst d.
  destruct (C158_rows S share_errors default order costs prices iteration constant gradients "raise" res [] C A Q) as (c & p & r & _ & _ & _ & _ & St & Er).
  assert (K : forall t, In t (s_ids S) -> exists s, r_stats res t = Some s /\ converged s = true).
  { intros t I. eexists. split; [exact (St t I)|]. match goal with |- ?b = true => destruct b eqn:E; [reflexivity|] end.
    exfalso. apply (proj2 (Er PricesConvergence)). exists t. split; [exact I|]. exact E. }
  split; [|exact K]. unfold failures. assert (F : forall t, In t order -> negb (converged (stat_of (r_stats res) t)) = false).
  { intros t I. destruct (K t (proj1 (proj2 A t) I)) as (s & Es & Cs). unfold stat_of. rewrite Es, Cs. reflexivity. }
  revert F. clear. intros F. induction order as [|t order IH]; [reflexivity|]. cbn [filter]. rewrite (F t (or_introl eq_refl)). apply IH. intros s I. apply F. right. exact I.
Qed.
Print Assumptions C158_converged.

(** With the routine that returns starting values, given prices are kept, shares are those at these prices, and nothing is iterated. *)
Theorem C158_keep_prices S share_errors default order costs l constant gradients behavior res d :
  consistent S -> arrivals S order ->
  replace_endogenous S share_errors default order costs (Some l) (AnIteration return_routine) constant gradients behavior = Returned res d ->
  (forall i, i < length (s_ids S) -> p_price (r_rows res i) = nth i l 0%R /\
     (let t := nth i (s_ids S) 0%Z in
      p_share (r_rows res i) = shares_at (s_market S t) (in_market S t (fun i => nth i l 0%R)) (rank (s_ids S) i) /\
      p_delta (r_rows res i) = update_delta (s_market S t) (in_market S t (fun i => nth i l 0%R)) (rank (s_ids S) i))) /\
  (forall t, In t (s_ids S) -> r_stats res t = Some (mk_stats true 0 0)) /\ total_iterations res order = 0 /\
  (forall e, In e d -> exists t m, e = SharesNumerical m /\ In t (s_ids S) /\ In m (share_errors t (in_market S t (fun i => nth i l 0%R)))).
Proof.
  intros C A Q. destruct (returned S share_errors default order costs (Some l) (AnIteration return_routine) constant gradients behavior C A res d Q) as (c & p & r & _ & (_ & Hp) & -> & Rw & St & Er & _).
  assert (E : p = (fun i => nth i l 0%R)) by (apply FunctionalExtensionality.functional_extensionality; exact Hp). subst p. split; [|split; [exact St|split]].
  - intros i Hi. rewrite (Rw i Hi). cbn [p_price p_share p_delta computed return_routine fst snd]. split; [|split; reflexivity].
    unfold in_market. rewrite (proj2 (rank_lt (s_ids S) i Hi)). reflexivity.
  - unfold total_iterations. assert (F : forall t, In t order -> iterations (stat_of (r_stats res) t) = 0) by (intros t I; unfold stat_of; rewrite (St t (proj1 (proj2 A t) I)); reflexivity).
    revert F. clear. induction order as [|t order IH]; intros F; cbn [fold_right]; [reflexivity|]. rewrite (F t (or_introl eq_refl)). apply IH. intros s I. apply F. right. exact I.
  - intros e I. rewrite Er in I. apply in_flat_map in I. destruct I as (t & It & I). cbn [computed return_routine fst snd converged map app] in I.
    apply in_map_iff in I. destruct I as (m & <- & I). exists t, m. split; [reflexivity|]. split; [apply A; exact It|exact I].
Qed.
Print Assumptions C158_keep_prices.

(** Without prices, this routine gives marginal cost pricing, if costs are constant or do not depend on shares. *)
Theorem C158_perfect_competition S share_errors default order costs constant gradients behavior res d :
  consistent S -> arrivals S order ->
  replace_endogenous S share_errors default order costs None (AnIteration return_routine) constant gradients behavior = Returned res d ->
  (forall t, constant = true \/ ~ costs_use_shares (s_supply S t)) ->
  forall i, i < length (s_ids S) -> p_price (r_rows res i) = p_cost (r_rows res i) /\
    p_cost (r_rows res i) = match costs with
      | Some l => nth i l 0%R
      | None => let t := nth i (s_ids S) 0%Z in initial_costs (s_supply S t) (s_shares S t) (s_omega S t) (rank (s_ids S) i)
      end.
Proof.
  intros C A Q U i Hi. destruct (returned S share_errors default order costs None (AnIteration return_routine) constant gradients behavior C A res d Q) as (c & p & r & Hc & -> & -> & Rw & _).
  rewrite (Rw i Hi). cbn [p_price p_cost computed return_routine fst snd]. rewrite simulated_constant by apply U. split; [reflexivity|].
  unfold in_market. rewrite (proj2 (rank_lt (s_ids S) i Hi)). destruct costs as [l|]; [apply (proj2 Hc)|apply Hc; exact Hi].
Qed.
Print Assumptions C158_perfect_competition.

(** If costs depend on shares and are not constant, prices are costs at the shares of the data, whereas costs that are reported are those at
    simulated shares: prices differ from costs, although the documentation says that competition is perfect. *)
Theorem C158_perfect_competition_refuted :
  exists S order res d, consistent S /\ arrivals S order /\
    replace_endogenous S (fun _ _ => []) return_routine order None None (AnIteration return_routine) false true "raise" = Returned res d /\ d = [] /\
    p_price (r_rows res 0) <> p_cost (r_rows res 0) /\ p_price (r_rows res 0) = 0%R /\ p_cost (r_rows res 0) = (/ 4)%R /\ p_share (r_rows res 0) = (/ 2)%R.
Proof. exact not_perfect. Qed.
Print Assumptions C158_perfect_competition_refuted.

(** Costs that are not constant and not given are what X3 and omega give at simulated shares. *)
Theorem C158_costs S share_errors default order prices iteration gradients behavior res d :
  consistent S -> arrivals S order -> (forall t, In t (s_ids S) -> honest (sK3 (s_supply S t)) (sX3 (s_supply S t))) ->
  replace_endogenous S share_errors default order None prices iteration false gradients behavior = Returned res d ->
  forall i, i < length (s_ids S) -> let t := nth i (s_ids S) 0%Z in
  exists shares, shares (rank (s_ids S) i) = p_share (r_rows res i) /\ p_cost (r_rows res i) = initial_costs (s_supply S t) shares (s_omega S t) (rank (s_ids S) i).
Proof.
  intros C A Ho Q i Hi t. destruct (returned S share_errors default order None prices iteration false gradients behavior C A res d Q) as (c & p & r & Hc & _ & _ & Rw & _).
  rewrite (Rw i Hi). cbn [p_price p_cost p_share]. fold t. eexists. split; [reflexivity|]. unfold simulated_costs, simulated_shares.
  rewrite <- updated_costs with (shares0 := s_shares S t) by (apply Ho, nth_In; exact Hi). unfold update_costs.
  assert (E : in_market S t c (rank (s_ids S) i) = initial_costs (s_supply S t) (s_shares S t) (s_omega S t) (rank (s_ids S) i)).
  { unfold in_market, t. rewrite (proj2 (rank_lt (s_ids S) i Hi)). apply Hc. exact Hi. }
  rewrite E. reflexivity.
Qed.
Print Assumptions C158_costs.

(** Norms of profit gradients are zero exactly if prices that are reported meet all first order conditions of firms, at costs that are reported. *)
Theorem C158_norms S share_errors default order costs prices iteration constant behavior res d t :
  consistent S -> arrivals S order ->
  replace_endogenous S share_errors default order costs prices iteration constant true behavior = Returned res d -> In t (s_ids S) ->
  valid_market (fm (s_market S t)) -> (forall x, good_columns (s_market S t) x) -> s_ownership S t = owns (s_firm S t) ->
  exists norms x c, r_norms res t = Some (Some norms) /\ (forall f, (0 <= norms f)%R) /\
    (forall j, j < mJ (fm (s_market S t)) -> in_market S t (fun i => p_price (r_rows res i)) j = x j /\ in_market S t (fun i => p_cost (r_rows res i)) j = c j) /\
    ((forall f, norms f = 0%R) <->
     (forall k, k < mJ (fm (s_market S t)) ->
        derivable_pt_lim (fun v => firm_profit (mJ (fm (s_market S t))) (s_firm S t) c (shares_at (s_market S t)) (s_firm S t k) (upd x k v)) (x k) 0%R)).
Proof.
  intros C A Q I V G Ow. destruct (returned S share_errors default order costs prices iteration constant true behavior C A res d Q) as (c & p & r & _ & _ & _ & Rw & _ & _ & Nm).
  specialize (Nm t I). cbv zeta in Nm. rewrite Ow in Nm. eexists _, _, _. split; [exact Nm|]. split; [intros f; apply norm_nonneg|]. split.
  2: { apply norms_foc; [exact V|apply G]. }
  intros j Hj. unfold in_market at 1 2. set (i := nth j (rows_of (s_ids S) t) 0).
  assert (L : j < length (rows_of (s_ids S) t)) by (rewrite <- (proj2 C t I); exact Hj).
  assert (Ii : i < length (s_ids S) /\ nth i (s_ids S) 0%Z = t) by (apply rows_of_in, nth_In; exact L). destruct Ii as [Hi Ht].
  assert (Rk : rank (s_ids S) i = j).
  { pose proof (rank_lt (s_ids S) i Hi) as [L' E']. rewrite Ht in L', E'. apply (proj1 (NoDup_nth (rows_of (s_ids S) t) 0) (NoDup_filter _ (seq_NoDup _ _)) (rank (s_ids S) i) j L' L). exact E'. }
  rewrite (Rw i Hi). cbn [p_price p_cost]. rewrite Ht, Rk. split; reflexivity.
Qed.
Print Assumptions C158_norms.

(** A market of replace_exogenous has no errors exactly if nothing went wrong numerically, no share was clipped, iteration converged, and costs
    could be computed and have logarithms if they need to. *)
Theorem C158_exogenous numerical clipped conv formulated cost_errors type values :
  exogenous_errors numerical clipped conv formulated cost_errors type values = [] <->
  numerical = [] /\ (forall b, In b clipped -> b = false) /\ conv = true /\
  (formulated = true -> cost_errors = [] /\ (type = LogCosts -> forall c, In c values -> (0 < c)%R)).
Proof. exact (exogenous_none numerical clipped conv formulated cost_errors type values). Qed.
Print Assumptions C158_exogenous.

(** Two markets with interleaved rows; the routine that does one step converges in one of them only. *)
Definition one_step : routine := fun J f x => (f x, mk_stats (Nat.eqb J 1) 1 1, []).
Definition interleaved : simulation :=
  mk_simulation [3; 1; 3]%Z [1; 0; 2] true (fun t => flat_market (if Z.eqb t 3 then 2 else 1) (fun _ => 1%R)) (fun _ => mk_supply 0 (fun _ => mk_column false (fun _ _ => 0%R) (fun _ _ => 0%R) (fun _ _ => 0%R)) (fun _ => 0%R) LinearCosts)
    (fun _ _ => / 4)%R (fun _ _ => 1%R) (fun _ => owns (fun j => j)) (fun _ j => j).
Example C158_applies : consistent interleaved /\ arrivals interleaved [3; 1]%Z /\
  (exists res d, replace_endogenous interleaved (fun _ _ => []) one_step [3; 1]%Z None None DefaultIteration true true "warn" = Returned res d /\ d = [PricesConvergence]) /\
  (exists e, replace_endogenous interleaved (fun _ _ => []) one_step [3; 1]%Z None None DefaultIteration true true "raise" = Raised e) /\
  (exists res, replace_endogenous interleaved (fun _ _ => []) one_step [3; 1]%Z None (Some [1; 2; 3]%R) (AnIteration return_routine) false true "raise" = Returned res []) /\
  (forall t, valid_market (fm (s_market interleaved t)) /\ (forall x, good_columns (s_market interleaved t) x) /\ ~ costs_use_shares (s_supply interleaved t) /\ honest (sK3 (s_supply interleaved t)) (sX3 (s_supply interleaved t))).
Proof.
  split; [|split; [|split; [|split; [|split]]]].
  - split; [exact (stable_argsort_correct [3; 1; 3]%Z)|]. intros t [<-|[<-|[<-|[]]]]; reflexivity.
  - split; [repeat constructor; cbn; intuition discriminate|]. intros t. cbn. tauto.
  - eexists _, _. split; reflexivity.
  - eexists. reflexivity.
  - eexists. reflexivity.
  - intros t. split; [cbn [interleaved s_market]; destruct (Z.eqb t 3); [exact (flat_valid 2 (fun _ => 1%R) ltac:(lia))|exact (flat_valid 1 (fun _ => 1%R) ltac:(lia))]|]. split; [intros x; apply flat_good|]. split; [intros (k & Hk & _); cbn in Hk; lia|].
    unfold honest. intros. exfalso. cbn in *. lia.
Qed.
