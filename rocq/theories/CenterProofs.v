(** Where demographics and integration nodes are measured from: proofs. *)
From Coq Require Import Reals Lra Lia List Bool Arith FunctionalExtensionality.
From Verif Require Import Base FltModel IterModel DemandModel SupplyModel DerivModel ConvModel WelfareModel EquilModel DemandSpec DemandProofs DemandElim ConvProofs CenterSpec.
Import ListNotations.
Local Open Scope R_scope.

Lemma recentered_coefficients T sigma pi e c k j i : r_types T k = RCLinear ->
  random_coefficients (recentered e c T) sigma pi k j i = random_coefficients T sigma pi k j i + common_change T sigma pi e c k j.
Proof.
  intro L. unfold random_coefficients, common_change. cbn [recentered r_types r_K2 r_D r_nodes r_dem]. rewrite L. cbn [rc_transform].
  rewrite (sumn_ext (r_K2 T) (fun l => sigma k l * (r_nodes T i l + e l)) (fun l => sigma k l * r_nodes T i l + sigma k l * e l)) by (intros; ring).
  rewrite (sumn_ext (r_D T) (fun d => pi k d * (r_dem T i d j + c d j)) (fun d => pi k d * r_dem T i d j + pi k d * c d j)) by (intros; ring).
  rewrite !sumn_plus. ring.
Qed.
Lemma recentered_mu T sigma pi e c i j : (forall k, (k < r_K2 T)%nat -> r_types T k = RCLinear) ->
  mu_of (recentered e c T) sigma pi i j = mu_of T sigma pi i j + common_utility T sigma pi e c j.
Proof.
  intro L. unfold mu_of, common_utility. change (r_K2 (recentered e c T)) with (r_K2 T). change (r_X2 (recentered e c T)) with (r_X2 T).
  rewrite <- sumn_plus. apply sumn_ext. intros k Hk. rewrite recentered_coefficients by (apply L, Hk). ring.
Qed.

(** Probabilities depend on sums of delta and mu. *)
Lemma scaled_same m delta mu delta' mu' : (forall j, delta' j + mu' j = delta j + mu j) -> scaled_utilities m delta' mu' = scaled_utilities m delta mu.
Proof. intro E. apply functional_extensionality. intro j. unfold scaled_utilities. rewrite E. reflexivity. Qed.
Lemma linear_same m c safe delta mu delta' mu' : (forall j, delta' j + mu' j = delta j + mu j) ->
  probabilities_linear m c safe delta' mu' = probabilities_linear m c safe delta mu.
Proof. intro E. unfold probabilities_linear. rewrite (scaled_same _ _ _ _ _ E). reflexivity. Qed.
Lemma shares_moved m I w mu mu' v safe delta j : (forall i j, mu' i j = mu i j + v j) ->
  market_shares m (mk_agents I w mu') safe (fun k => delta k - v k) j = market_shares m (mk_agents I w mu) safe delta j.
Proof.
  intro E. unfold market_shares. cbn [aI aw amu]. apply sumn_ext. intros i _. f_equal.
  rewrite (linear_same m full_choice safe delta (mu i)); [reflexivity|]. intro k. rewrite E. ring.
Qed.
Lemma contraction_moved m I w mu mu' v safe bounds shares x j : (forall i j, mu' i j = mu i j + v j) ->
  contraction m (mk_agents I w mu') safe bounds shares (fun k => x k - v k) j = contraction m (mk_agents I w mu) safe bounds shares x j - v j.
Proof. intro E. unfold contraction. rewrite (shares_moved m I w mu mu' v safe x j E). destruct (Nat.eqb (mH m) 0); ring. Qed.

(** Lowered vectors. *)
Definition low (v : nat -> R) (s : nat) (x : fvec) : fvec := map (fun jx => fsub (snd jx) (Num (v (fst jx)))) (combine (seq s (length x)) x).
Lemma low_cons v s a x : low v s (a :: x) = fsub a (Num (v s)) :: low v (S s) x.
Proof. reflexivity. Qed.
Lemma low_length v s x : length (low v s x) = length x.
Proof. unfold low. rewrite map_length, combine_length, seq_length. lia. Qed.
Lemma low_finite v s x : vfin (low v s x) = vfin x.
Proof. revert s. induction x as [|a x IH]; intro s; [reflexivity|]. rewrite low_cons. unfold vfin in *. cbn [forallb]. rewrite IH. destruct a; reflexivity. Qed.
Lemma low_sub v s x y : vsub (low v s x) (low v s y) = vsub x y.
Proof.
  revert s y. induction x as [|a x IH]; intros s [|b y]; try reflexivity. rewrite !low_cons. unfold vsub in *. cbn [vzip]. rewrite IH. f_equal.
  destruct a, b; cbn; try reflexivity. f_equal. ring.
Qed.
Lemma low_accelerate v s alpha x r y : accelerate alpha (low v s x) r y = low v s (accelerate alpha x r y).
Proof.
  unfold accelerate. revert s r y. induction x as [|a x IH]; intros s [|b r] [|d y]; try reflexivity. rewrite low_cons. cbn [map vzip]. rewrite low_cons. rewrite IH. f_equal.
  destruct a, (fmul (fmul (Num 2) alpha) b), (fmul (fmul alpha alpha) d); cbn; try reflexivity. f_equal. ring.
Qed.
Lemma low_flat v J (f : nat -> R) : lowered v (flat J f) = flat J (fun j => f j - v j).
Proof.
  unfold lowered, flat. rewrite map_length, seq_length. generalize 0%nat. induction J as [|J IH]; intro s; [reflexivity|]. cbn [seq map combine fst snd]. rewrite IH. reflexivity.
Qed.
Lemma low_nth v s x j : (j < length x)%nat -> vfin x = true -> fnum (nth j (low v s x) NaN) = fnum (nth j x NaN) - v (s + j)%nat.
Proof.
  revert s j. induction x as [|a x IH]; intros s j Hj F; [cbn in Hj; lia|]. rewrite low_cons. unfold vfin in F. cbn [forallb] in F. apply andb_true_iff in F as [Fa F].
  destruct j as [|j]; cbn [nth]; [rewrite Nat.add_0_r; destruct a; try discriminate; cbn; ring|].
  rewrite (IH (S s) j ltac:(cbn in Hj; lia) F). f_equal. f_equal. lia.
Qed.

(** What is observed of a routine that is given lowered values. *)
Definition low_event v (p : event) : event := (lowered v (fst p), (lowered v (fst (snd p)), snd (snd p))).
Definition low_state v (s : st) : st := mk_st (s_iterations s) (s_evaluations s) (map (low_event v) (s_log s)).
Definition low_outcome v (o : outcome) : outcome := mk_out (lowered v (o_x o)) (o_converged o) (low_state v (o_st o)).
Definition low_squarem v (q : sq_outcome) : sq_outcome := mk_sq (low_outcome v (q_out q)) (q_steps q).

Section Routines.
  Variables (v : nat -> R) (J : nat) (f f' : contraction_fn) (t : tolerance).
  Hypothesis L : forall log it e x, length x = J -> length (fst (f log it e x)) = J.
  Hypothesis W : forall log it e x, length x = J -> snd (f log it e x) = None.
  Hypothesis E : forall log log' it e x, length x = J -> f' log' it e (lowered v x) = (lowered v (fst (f log it e x)), None).
  Hypothesis HR : fltb (Num 0) (t_rtol t) = false.

  Lemma lowered_length x : length (lowered v x) = length x.
  Proof using. apply low_length. Qed.
  Lemma lowered_sub x y : vsub (lowered v x) (lowered v y) = vsub x y.
  Proof using. exact (low_sub v 0 x y). Qed.
  Lemma lowered_finite x : vfin (lowered v x) = vfin x.
  Proof using. exact (low_finite v 0 x). Qed.
  Lemma lowered_accelerate alpha x r y : accelerate alpha (lowered v x) r y = lowered v (accelerate alpha x r y).
  Proof using. exact (low_accelerate v 0 alpha x r y). Qed.
  Lemma low_evaluate s x : length x = J -> evaluate f' (low_state v s) (lowered v x)
    = let '(y, w, s1) := evaluate f s x in (lowered v y, w, low_state v s1).
  Proof using W E.
    intro H. unfold evaluate. cbn [low_state s_log s_iterations s_evaluations].
    rewrite (E (s_log s) (map (low_event v) (s_log s)) (s_iterations s) (S (s_evaluations s)) x H). cbn [fst snd].
    rewrite (W (s_log s) (s_iterations s) (S (s_evaluations s)) x H). unfold low_state. cbn [s_iterations s_evaluations s_log map]. unfold low_event at 2. cbn [fst snd].
    rewrite (W (s_log s) (s_iterations s) (S (s_evaluations s)) x H). reflexivity.
  Qed.
  Lemma low_check x y w : termination_check t (lowered v x) (vsub (lowered v x) (lowered v y)) w = termination_check t x (vsub x y) w.
  Proof using HR. unfold termination_check. rewrite HR, lowered_sub. reflexivity. Qed.
  Lemma low_all x w : all_finite (lowered v x) w = all_finite x w.
  Proof using. unfold all_finite. rewrite lowered_finite. reflexivity. Qed.

  Lemma low_simple fuel max x e s : length x = J ->
    simple_loop fuel f' t max (lowered v x) e (low_state v s) = option_map (low_outcome v) (simple_loop fuel f t max x e s).
  Proof using L W E HR.
    revert x e s. induction fuel as [|fuel IH]; intros x e s H; [reflexivity|]. cbn [simple_loop]. rewrite low_evaluate by exact H.
    assert (Ly : length (fst (fst (evaluate f s x))) = J) by (apply L, H).
    destruct (evaluate f s x) as [[y w] s1]. cbn [fst] in Ly. rewrite low_all. destruct (negb (all_finite y w)); [reflexivity|].
    rewrite low_check. destruct (orb _ _); [reflexivity|]. exact (IH y (S e) (callback s1) Ly).
  Qed.
  Lemma accelerate_length alpha x r y : length r = length x -> length y = length x -> length (accelerate alpha x r y) = length x.
  Proof using.
    unfold accelerate. revert r y. induction x as [|a x IH]; intros [|b r] [|d y] H1 H2; try discriminate; [reflexivity|]. cbn. f_equal. apply IH; cbn in *; lia.
  Qed.
  Lemma vsub_length x y : length x = length y -> length (vsub x y) = length x.
  Proof using. revert y. induction x as [|a x IH]; intros [|b y] H; try discriminate; [reflexivity|]. cbn. f_equal. apply IH. cbn in H. lia. Qed.
  Lemma low_squarem_loop fuel max scheme factor b x e s steps : length x = J ->
    squarem_loop fuel f' t max scheme factor b (lowered v x) e (low_state v s) steps = option_map (low_squarem v) (squarem_loop fuel f t max scheme factor b x e s steps).
  Proof using L W E HR.
    revert b x e s steps. induction fuel as [|fuel IH]; intros b x e s steps H; [reflexivity|]. cbn [squarem_loop]. rewrite low_evaluate by exact H.
    assert (L1 : length (fst (fst (evaluate f s x))) = J) by (apply L, H).
    destruct (evaluate f s x) as [[x1 w1] s1]. cbn [fst] in L1. rewrite low_all. destruct (negb (all_finite x1 w1)); [reflexivity|].
    rewrite low_check. destruct (orb _ _); [reflexivity|]. rewrite low_evaluate by exact L1.
    assert (L2 : length (fst (fst (evaluate f s1 x1))) = J) by (apply L, L1).
    destruct (evaluate f s1 x1) as [[x2 w2] s2]. cbn [fst] in L2. rewrite low_all. destruct (negb (all_finite x2 w2)); [reflexivity|].
    rewrite low_check. destruct (orb _ _); [reflexivity|]. rewrite !lowered_sub, lowered_accelerate.
    set (alpha := bound_alpha b (raw_alpha scheme (vsub x1 x) (vsub (vsub x2 x1) (vsub x1 x)))).
    assert (L3 : length (accelerate alpha x (vsub x1 x) (vsub (vsub x2 x1) (vsub x1 x))) = J).
    { rewrite accelerate_length; rewrite ?vsub_length; rewrite ?vsub_length; congruence. }
    set (x3 := accelerate alpha x (vsub x1 x) (vsub (vsub x2 x1) (vsub x1 x))) in *. rewrite low_evaluate by exact L3.
    assert (L4 : length (fst (fst (evaluate f s2 x3))) = J) by (apply L, L3).
    destruct (evaluate f s2 x3) as [[x4 w4] s4]. cbn [fst] in L4. rewrite low_all. destruct (negb (all_finite x4 w4)); [reflexivity|].
    rewrite low_check. destruct (orb _ _); [reflexivity|]. exact (IH _ x4 _ (callback s4) _ L4).
  Qed.
End Routines.

Section Moved.
  Variables (m : market) (I : nat) (w : nat -> R) (mu mu' : nat -> nat -> R) (v : nat -> R) (safe : bool) (bounds : option R * option R) (shares : nat -> R).
  Hypotheses (V : valid_market m) (HM : forall i j, mu' i j = mu i j + v j).
  Lemma low_flat_J f : lowered v (flat (mJ m) f) = flat (mJ m) (fun j => f j - v j).
  Proof using. apply low_flat. Qed.
  Lemma flat_length J f : length (flat J f) = J.
  Proof using. unfold flat. rewrite map_length, seq_length. reflexivity. Qed.
  Lemma moved_function log log' it e x : length x = mJ m ->
    delta_function m (mk_agents I w mu') safe bounds shares log' it e (lowered v x)
    = (lowered v (fst (delta_function m (mk_agents I w mu) safe bounds shares log it e x)), None).
  Proof using V HM.
    intro H. unfold delta_function. rewrite (lowered_finite v x). destruct (vfin x) eqn:F; cbn [fst].
    - rewrite low_flat. f_equal. apply map_ext_in. intros j Hj. apply in_seq in Hj. f_equal.
      rewrite <- (contraction_moved m I w mu mu' v safe bounds shares (column x) j HM).
      assert (Q : forall k, (k < mJ m)%nat -> column (lowered v x) k = column x k - v k) by (intros k Hk; exact (low_nth v 0 x k ltac:(lia) F)).
      unfold contraction. rewrite (market_shares_ext m _ safe (column (lowered v x)) (fun k => column x k - v k) j V ltac:(lia) Q), (Q j) by lia. reflexivity.
    - clear H. f_equal. unfold lowered. rewrite repeat_length. generalize 0%nat. induction (mJ m) as [|J IH]; intro s; [reflexivity|]. cbn [repeat seq combine map fst snd]. rewrite <- IH. reflexivity.
  Qed.
  Lemma moved_simple t max start : fltb (Num 0) (t_rtol t) = false ->
    simple_iterator (delta_function m (mk_agents I w mu') safe bounds shares) t max (flat (mJ m) (fun j => start j - v j))
    = option_map (low_outcome v) (simple_iterator (delta_function m (mk_agents I w mu) safe bounds shares) t max (flat (mJ m) start)).
  Proof using V HM.
    intro HR. rewrite <- low_flat_J. unfold simple_iterator. change st0 with (low_state v st0) at 1.
    apply (low_simple v (mJ m)).
    - intros log it e x H. unfold delta_function. destruct (vfin x); [apply flat_length|apply repeat_length].
    - intros log it e x H. unfold delta_function. destruct (vfin x); reflexivity.
    - intros. apply moved_function. assumption.
    - exact HR.
    - apply flat_length.
  Qed.
  Lemma moved_squarem t max scheme factor b start : fltb (Num 0) (t_rtol t) = false ->
    squarem_iterator (delta_function m (mk_agents I w mu') safe bounds shares) t max scheme factor b (flat (mJ m) (fun j => start j - v j))
    = option_map (low_squarem v) (squarem_iterator (delta_function m (mk_agents I w mu) safe bounds shares) t max scheme factor b (flat (mJ m) start)).
  Proof using V HM.
    intro HR. rewrite <- low_flat_J. unfold squarem_iterator. change st0 with (low_state v st0) at 1.
    apply (low_squarem_loop v (mJ m)).
    - intros log it e x H. unfold delta_function. destruct (vfin x); [apply flat_length|apply repeat_length].
    - intros log it e x H. unfold delta_function. destruct (vfin x); reflexivity.
    - intros. apply moved_function. assumption.
    - exact HR.
    - apply flat_length.
  Qed.
End Moved.

(** Counterfactuals. *)
Section Same.
  Variables (M M' : full_market).
  Hypothesis H : same_utilities M M'.
  Lemma same_probs x : probs (fm M') (update_delta M' x) (update_mu M' x) = probs (fm M) (update_delta M x) (update_mu M x).
  Proof using H.
    destruct H as (Em & _ & _ & _ & Eu & _). apply functional_extensionality. intro i. unfold probs. rewrite Em.
    rewrite (linear_same (fm M) full_choice true _ _ (update_delta M' x) (update_mu M' x i) (fun j => Eu x i j)). reflexivity.
  Qed.
  Lemma same_conds x : conds (fm M') (update_delta M' x) (update_mu M' x) = conds (fm M) (update_delta M x) (update_mu M x).
  Proof using H.
    destruct H as (Em & _ & _ & _ & Eu & _). apply functional_extensionality. intro i. unfold conds. rewrite Em.
    rewrite (linear_same (fm M) full_choice true _ _ (update_delta M' x) (update_mu M' x i) (fun j => Eu x i j)). reflexivity.
  Qed.
  Lemma same_derivatives x : utility_derivatives M' false x = utility_derivatives M false x.
  Proof using H. destruct H as (_ & _ & _ & _ & _ & Ed). apply functional_extensionality. intro i. apply functional_extensionality. intro j. apply Ed. Qed.
  Lemma same_shares : shares_at M' = shares_at M.
  Proof using H.
    apply functional_extensionality. intro x. unfold shares_at. rewrite same_probs. destruct H as (_ & EI & Ew & _). rewrite EI, Ew. reflexivity.
  Qed.
  Lemma same_lamda : lamda_at M' = lamda_at M.
  Proof using H.
    apply functional_extensionality. intro x. unfold lamda_at. rewrite same_probs, same_derivatives. destruct H as (Em & EI & Ew & _). rewrite Em, EI, Ew. reflexivity.
  Qed.
  Lemma same_gamma : gamma_at M' = gamma_at M.
  Proof using H.
    apply functional_extensionality. intro x. unfold gamma_at. rewrite same_probs, same_conds, same_derivatives. destruct H as (Em & EI & Ew & _). rewrite Em, EI, Ew. reflexivity.
  Qed.
  Lemma same_jacobian : shares_jacobian M' = shares_jacobian M.
  Proof using H.
    apply functional_extensionality. intro x. unfold shares_jacobian. rewrite same_probs, same_conds, same_derivatives. destruct H as (Em & EI & Ew & _). rewrite Em, EI, Ew. reflexivity.
  Qed.
  Lemma same_capital O : capital_delta M' O = capital_delta M O.
  Proof using H. unfold capital_delta. rewrite same_gamma, same_lamda. reflexivity. Qed.
  Lemma same_costs solve O observed : compute_costs solve M' O observed = compute_costs solve M O observed.
  Proof using H. unfold compute_costs, compute_eta. rewrite same_capital. destruct H as (_ & _ & _ & Ev & _). rewrite Ev. reflexivity. Qed.
  Lemma same_prices O costs t max start : equilibrium_prices M' O costs t max start = equilibrium_prices M O costs t max start.
  Proof using H.
    unfold equilibrium_prices, prices_function, price_contraction, zeta, price_weights. rewrite same_lamda, same_gamma, same_shares.
    destruct H as (Em & _ & _ & Ev & _). rewrite Em, Ev. reflexivity.
  Qed.
  Lemma same_surplus avail mask x : consumer_surplus M' avail mask x = consumer_surplus M avail mask x.
  Proof using H.
    unfold consumer_surplus, individual_surplus. rewrite same_derivatives. destruct H as (Em & EI & Ew & Ev & Eu & _). rewrite Em, EI, Ew, Ev. apply sumn_ext. intros i _. f_equal. f_equal.
    unfold surplus_numerator. replace (surplus_utilities (fm M) (update_delta M' x) (update_mu M' x i)) with (surplus_utilities (fm M) (update_delta M x) (update_mu M x i)); [reflexivity|].
    apply functional_extensionality. intro j. unfold surplus_utilities. rewrite Eu. reflexivity.
  Qed.
  Lemma same_elasticities observed : elasticities M' observed = elasticities M observed.
  Proof using H. unfold elasticities. rewrite same_jacobian. destruct H as (_ & _ & _ & Ev & _). rewrite Ev. reflexivity. Qed.
End Same.

Lemma sum_selected K (a : nat -> R) (q : nat -> nat) K1 (z : nat -> R) : (forall k, (k < K)%nat -> a k <> 0 -> (q k < K1)%nat) ->
  sumn K1 (fun k1 => z k1 * sumn K (fun k => if Nat.eqb (q k) k1 then a k else 0)) = sumn K (fun k => z (q k) * a k).
Proof.
  intro Q. rewrite (sumn_ext K1 _ (fun k1 => sumn K (fun k => z k1 * (if Nat.eqb (q k) k1 then a k else 0)))) by (intros; rewrite sumn_scal; reflexivity).
  rewrite sumn_swap. apply sumn_ext. intros k Hk. destruct (Req_EM_T (a k) 0) as [Z|Z].
  - rewrite Z, Rmult_0_r. rewrite (sumn_ext K1 _ (fun _ => 0)); [apply sumn_zero|]. intros k1 _. destruct (Nat.eqb (q k) k1); ring.
  - rewrite (sumn_ext K1 _ (fun k1 => if Nat.eqb (q k) k1 then z (q k) * a k else 0)).
    + rewrite (sumn_single K1 (q k)); [rewrite Nat.eqb_refl; reflexivity|apply Q; assumption|].
      intros i _ Hi. destruct (Nat.eqb_spec (q k) i); [congruence|reflexivity].
    + intros k1 _. destruct (Nat.eqb_spec (q k) k1) as [<-|_]; ring.
Qed.
Lemma compensated_same a q M : (forall k, (k < fK2 M)%nat -> a k <> 0 -> uses (fX2 M k) = true -> (q k < fK1 M)%nat /\ fX1 M (q k) = fX2 M k) ->
  (forall k, (k < fK2 M)%nat -> a k <> 0 -> uses (fX2 M k) = false -> (q k < fK1 M)%nat /\ uses (fX1 M (q k)) = false) ->
  same_utilities M (compensated a q M).
Proof.
  intros HU HN. assert (HQ : forall k, (k < fK2 M)%nat -> a k <> 0 -> (q k < fK1 M)%nat).
  { intros k Hk Ha. destruct (uses (fX2 M k)) eqn:U; [exact (proj1 (HU k Hk Ha U))|exact (proj1 (HN k Hk Ha U))]. }
  repeat split.
  - intros x i j. unfold update_delta, update_mu, compute_mu. cbn [compensated fm fI fw fK1 fX1 fbeta fK2 fX2 fcoef var0 delta0 X2_0].
    set (g := fun k1 => if uses (fX1 M k1) then ev (fX1 M k1) j (x j) - ev (fX1 M k1) j (var0 M j) else 0).
    rewrite (sumn_ext (fK1 M) _ (fun k1 => (if uses (fX1 M k1) then fbeta M k1 * (ev (fX1 M k1) j (x j) - ev (fX1 M k1) j (var0 M j)) else 0)
      - g k1 * sumn (fK2 M) (fun k => if Nat.eqb (q k) k1 then a k else 0))) by (intros k1 _; unfold g; destruct (uses (fX1 M k1)); ring).
    rewrite sumn_minus, (sum_selected (fK2 M) a q (fK1 M) g HQ).
    rewrite (sumn_ext (fK2 M) (fun k => (if uses (fX2 M k) then ev (fX2 M k) j (x j) else X2_0 M j k) * (fcoef M k j i + a k))
      (fun k => (if uses (fX2 M k) then ev (fX2 M k) j (x j) else X2_0 M j k) * fcoef M k j i
        + (g (q k) * a k + (if uses (fX2 M k) then ev (fX2 M k) j (var0 M j) else X2_0 M j k) * a k))).
    + rewrite !sumn_plus. ring.
    + intros k Hk. destruct (Req_EM_T (a k) 0) as [Z|Z]; [rewrite Z; ring|]. unfold g. destruct (uses (fX2 M k)) eqn:U.
      * destruct (HU k Hk Z U) as [_ ->]. rewrite U. ring.
      * destruct (HN k Hk Z U) as [_ ->]. ring.
  - intros second x i j. unfold utility_derivatives. cbv zeta.
    set (d := fun c : SupplyModel.column => if uses c then (if second then dv2 c else dv1 c) j (x j) else 0).
    assert (E : sumn (fK1 M) (fun k => d (fX1 M k) * (fbeta M k - sumn (fK2 M) (fun k0 => if Nat.eqb (q k0) k then a k0 else 0))) +
                sumn (fK2 M) (fun k => d (fX2 M k) * (fcoef M k j i + a k))
              = sumn (fK1 M) (fun k => d (fX1 M k) * fbeta M k) + sumn (fK2 M) (fun k => d (fX2 M k) * fcoef M k j i)).
    { rewrite (sumn_ext (fK1 M) _ (fun k => d (fX1 M k) * fbeta M k - d (fX1 M k) * sumn (fK2 M) (fun k0 => if Nat.eqb (q k0) k then a k0 else 0))) by (intros; ring).
      rewrite sumn_minus, (sum_selected (fK2 M) a q (fK1 M) (fun k => d (fX1 M k)) HQ).
      rewrite (sumn_ext (fK2 M) (fun k => d (fX2 M k) * (fcoef M k j i + a k)) (fun k => d (fX2 M k) * fcoef M k j i + d (fX1 M (q k)) * a k)).
      - rewrite sumn_plus. ring.
      - intros k Hk. destruct (Req_EM_T (a k) 0) as [Z|Z]; [rewrite Z; ring|]. destruct (uses (fX2 M k)) eqn:U.
        + destruct (HU k Hk Z U) as [_ ->]. ring.
        + destruct (HN k Hk Z U) as [_ U1]. assert (D1 : d (fX2 M k) = 0) by (unfold d; rewrite U; reflexivity). assert (D2 : d (fX1 M (q k)) = 0) by (unfold d; rewrite U1; reflexivity).
          rewrite D1, D2. ring. }
    exact (f_equal (fun u => if Req_EM_T (eps_scale (fm M)) 1 then u else u / eps_scale (fm M)) E).
Qed.

(** One product, two agents, and a lognormal coefficient on a constant. *)
Definition constant_market : market := mk_market 1 0 (fun _ => O) false (fun _ => 0) 1.
Lemma constant_valid : valid_market constant_market.
Proof. constructor; cbn; intros; try lia; try lra; congruence. Qed.
Lemma constant_shares mu u : (forall i, mu i O = match i with O => mu O O | _ => mu 1%nat O end) ->
  market_shares constant_market (mk_agents 2 (fun _ => / 2) mu) true (fun _ => u) 0
  = (exp u * exp (mu O O) / (1 + exp u * exp (mu O O)) + exp u * exp (mu 1%nat O) / (1 + exp u * exp (mu 1%nat O))) / 2.
Proof.
  intros _. rewrite shares_are_averaged by (try exact constant_valid; cbn; lia).
  cbn [constant_market mH Nat.eqb mJ aI aw amu eps_scale sumn]. unfold logit. cbn [all_goods indR sumn].
  unfold Rdiv. rewrite !Rinv_1, !Rmult_1_r, !exp_plus. assert (U := exp_pos u). assert (P := exp_pos (mu O O)). assert (Q := exp_pos (mu 1%nat O)).
  set (a := exp u) in *. set (b := exp (mu O O)) in *. set (c := exp (mu 1%nat O)) in *. assert (0 < a * b) by nra. assert (0 < a * c) by nra. field. lra.
Qed.
(** Pairs with the same averages of logit probabilities are the same. *)
Lemma pairs_unique a b c d : 0 < a -> 0 < b -> 0 < c -> 0 < d ->
  (forall u, 0 < u -> u * a / (1 + u * a) + u * b / (1 + u * b) = u * c / (1 + u * c) + u * d / (1 + u * d)) -> a + b = c + d /\ a * b = c * d.
Proof.
  intros Ha Hb Hc Hd E.
  assert (P : forall u, 0 < u -> (a + b - (c + d)) + 2 * (a * b - c * d) * u + (a * b * (c + d) - c * d * (a + b)) * (u * u) = 0).
  { intros u Hu. assert (0 < u * a) by nra. assert (0 < u * b) by nra. assert (0 < u * c) by nra. assert (0 < u * d) by nra.
    assert (F := E u Hu). apply (f_equal (fun z => z * ((1 + u * a) * (1 + u * b) * (1 + u * c) * (1 + u * d)))) in F.
    replace ((u * a / (1 + u * a) + u * b / (1 + u * b)) * ((1 + u * a) * (1 + u * b) * (1 + u * c) * (1 + u * d)))
      with ((u * a * (1 + u * b) + u * b * (1 + u * a)) * ((1 + u * c) * (1 + u * d))) in F by (field; lra).
    replace ((u * c / (1 + u * c) + u * d / (1 + u * d)) * ((1 + u * a) * (1 + u * b) * (1 + u * c) * (1 + u * d)))
      with ((u * c * (1 + u * d) + u * d * (1 + u * c)) * ((1 + u * a) * (1 + u * b))) in F by (field; lra).
    apply (Rmult_eq_reg_l u); [|lra]. rewrite Rmult_0_r. lra. }
  assert (P1 := P 1 ltac:(lra)). assert (P2 := P 2 ltac:(lra)). assert (P3 := P 3 ltac:(lra)). lra.
Qed.
Lemma lognormal_moves : let T := mk_tastes 1 0 (fun _ => RCLog) (fun i _ => match i with O => 0 | _ => ln 2 end) (fun _ _ _ => 0) (fun _ _ => 1) in
  let sigma := fun _ _ : nat => 1 in let pi := fun _ _ : nat => 0 in
  ~ exists v, forall u, market_shares constant_market (mk_agents 2 (fun _ => / 2) (mu_of (recentered (fun _ => ln 2) (fun _ _ => 0) T) sigma pi)) true (fun _ => u - v) 0
     = market_shares constant_market (mk_agents 2 (fun _ => / 2) (mu_of T sigma pi)) true (fun _ => u) 0.
Proof.
  intros T sigma pi [v Hv].
  assert (M1 : mu_of T sigma pi O O = 1).
  { unfold mu_of, random_coefficients, T, sigma, pi; cbn. match goal with |- context [exp ?z] => replace z with 0 by ring end. rewrite exp_0. ring. }
  assert (M2 : mu_of T sigma pi 1%nat O = 2).
  { unfold mu_of, random_coefficients, T, sigma, pi; cbn. match goal with |- context [exp ?z] => replace z with (ln 2) by ring end. rewrite exp_ln; lra. }
  assert (N1 : mu_of (recentered (fun _ => ln 2) (fun _ _ => 0) T) sigma pi O O = 2).
  { unfold mu_of, random_coefficients, T, sigma, pi; cbn. match goal with |- context [exp ?z] => replace z with (ln 2) by ring end. rewrite exp_ln; lra. }
  assert (N2 : mu_of (recentered (fun _ => ln 2) (fun _ _ => 0) T) sigma pi 1%nat O = 4).
  { unfold mu_of, random_coefficients, T, sigma, pi; cbn. match goal with |- context [exp ?z] => replace z with (ln 2 + ln 2) by ring end. rewrite exp_plus, exp_ln; lra. }
  assert (Q : forall w, 0 < w -> w * (exp (- v) * exp 2) / (1 + w * (exp (- v) * exp 2)) + w * (exp (- v) * exp 4) / (1 + w * (exp (- v) * exp 4))
     = w * exp 1 / (1 + w * exp 1) + w * exp 2 / (1 + w * exp 2)).
  { intros w Hw. assert (E := Hv (ln w)). rewrite !constant_shares in E by (intros [|[|i]]; reflexivity). rewrite M1, M2, N1, N2 in E.
    unfold Rminus in E. rewrite exp_plus, exp_ln in E by exact Hw. rewrite <- !Rmult_assoc. lra. }
  assert (e1 := exp_pos 1). assert (ev := exp_pos (- v)). assert (G : exp 0 < exp 1) by (apply exp_increasing; lra). rewrite exp_0 in G.
  assert (E2 : exp 2 = exp 1 * exp 1) by (rewrite <- exp_plus; f_equal; ring). assert (E4 : exp 4 = exp 1 * exp 1 * (exp 1 * exp 1)) by (rewrite <- !exp_plus; f_equal; ring).
  rewrite E2, E4 in Q. set (e := exp 1) in *. set (t := exp (- v)) in *. assert (0 < e * e) by nra. assert (0 < e * e * (e * e)) by nra.
  destruct (pairs_unique (t * (e * e)) (t * (e * e * (e * e))) e (e * e)) as [S1 S2]; try assumption; try (apply Rmult_lt_0_compat; assumption).
  (* t e (1 + e^2) = 1 + e and t^2 e^3 = 1 *)
  assert (S1' : t * e * (1 + e * e) = 1 + e) by (apply (Rmult_eq_reg_l e); lra).
  assert (S2' : (t * e) * (t * e) * e = 1) by (apply (Rmult_eq_reg_l (e * e * e)); [lra|assert (0 < e * e * e) by nra; lra]).
  set (z := t * e) in *. assert (Hz : 0 < z) by (unfold z; nra).
  (* (1 + e)^2 e = (1 + e^2)^2 *)
  assert (K : (1 + e) * (1 + e) * e = (1 + e * e) * (1 + e * e)).
  { rewrite <- S1'. transitivity ((z * z * e) * ((1 + e * e) * (1 + e * e))); [ring|]. rewrite S2'. ring. }
  assert (1 < e * e) by nra. assert (C3 : 1 < e * e * e) by nra.
  assert (P := Rmult_lt_0_compat (e - 1) (e * e * e - 1) ltac:(lra) ltac:(lra)). lra.
Qed.
