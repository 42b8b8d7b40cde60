(** Lemmas about the law of demand and revealed preference. *)
From Coq Require Import Reals Lra Lia List Bool Arith FunctionalExtensionality.
From Verif Require Import Base DemandSpec DemandModel DemandProofs DemandShares DemandDeriv
  SupplyModel SupplySpec SupplyProofs WelfareModel WelfareSpec WelfareProofs LawSpec.
Import ListNotations.
Local Open Scope R_scope.

(* ---------- averages of exponentials ---------- *)

Lemma exp_average n (c y : nat -> R) :
  (forall k, (k < n)%nat -> 0 <= c k) -> sumn n c = 1 ->
  exp (sumn n (fun k => c k * y k)) <= sumn n (fun k => c k * exp (y k)).
Proof.
  intros P T. set (S := sumn n (fun k => c k * y k)).
  apply Rmult_le_reg_r with (exp (- S)); [apply exp_pos|].
  rewrite <- exp_plus. replace (S + - S) with 0 by ring. rewrite exp_0, <- sumn_scal_r.
  replace 1 with (sumn n (fun k => c k * (1 + (y k - S)))).
  - apply sumn_le. intros k Hk. rewrite Rmult_assoc, <- exp_plus.
    apply Rmult_le_compat_l; [apply P; exact Hk|]. apply exp_ineq1_le.
  - rewrite (sumn_ext n _ (fun k => c k + (c k * y k - c k * S))) by (intros; ring).
    rewrite sumn_plus, sumn_minus, sumn_scal_r, T. fold S. ring.
Qed.

Lemma exp_average_strict n (c y : nat -> R) l :
  (forall k, (k < n)%nat -> 0 <= c k) -> sumn n c = 1 -> (l < n)%nat -> 0 < c l ->
  y l <> sumn n (fun k => c k * y k) ->
  exp (sumn n (fun k => c k * y k)) < sumn n (fun k => c k * exp (y k)).
Proof.
  intros P T Hl Pl Ne. set (S := sumn n (fun k => c k * y k)) in *.
  apply Rmult_lt_reg_r with (exp (- S)); [apply exp_pos|].
  rewrite <- exp_plus. replace (S + - S) with 0 by ring. rewrite exp_0, <- sumn_scal_r.
  replace 1 with (sumn n (fun k => c k * (1 + (y k - S)))).
  - apply sumn_lt.
    + intros k Hk. rewrite Rmult_assoc, <- exp_plus.
      apply Rmult_le_compat_l; [apply P; exact Hk|]. apply exp_ineq1_le.
    + exists l. split; [exact Hl|]. rewrite Rmult_assoc, <- exp_plus.
      apply Rmult_lt_compat_l; [exact Pl|]. apply exp_ineq1. intros Z. apply Ne. lra.
  - rewrite (sumn_ext n _ (fun k => c k + (c k * y k - c k * S))) by (intros; ring).
    rewrite sumn_plus, sumn_minus, sumn_scal_r, T. fold S. ring.
Qed.

(* ---------- the log-sum lies above its tangents ---------- *)

Section Tangent.
  Variables (J H : nat) (grp : nat -> nat) (r : nat -> R) (inc : nat -> bool).
  Hypothesis Hg : forall j, (j < J)%nat -> (grp j < H)%nat.
  Hypothesis Hr : forall h, (h < H)%nat -> r h < 1.
  Variables V V' : nat -> R.
  Let d (j : nat) : R := V' j - V j.
  Let W := group_weight J grp r inc V.
  Let W' := group_weight J grp r inc V'.
  Let within := within_group J grp r inc V.
  Let mean (h : nat) : R := sumn J (fun j => if Nat.eqb (grp j) h then within j * d j else 0).
  Let some (h : nat) : bool := existsb (fun k => inc k && Nat.eqb (grp k) h) (seq 0 J).

  Lemma within_nonneg j : (j < J)%nat -> 0 <= within j.
  Proof.
    intros Hj. unfold within. destruct (inc j) eqn:E.
    - left. apply within_pos; assumption.
    - unfold within_group. rewrite E. lra.
  Qed.

  Let cw (h j : nat) : R := if Nat.eqb (grp j) h then within j else 0.
  Lemma cw_nonneg h j : (j < J)%nat -> 0 <= cw h j.
  Proof. intros Hj. unfold cw. destruct (Nat.eqb (grp j) h); [apply within_nonneg; exact Hj|lra]. Qed.
  Lemma cw_total h : some h = true -> sumn J (cw h) = 1.
  Proof. intros E. unfold cw, within. rewrite within_group_total. fold (some h). rewrite E. reflexivity. Qed.

  Lemma inclusive_ratio h : some h = true ->
    inclusive J grp r inc V' h = inclusive J grp r inc V h * sumn J (fun j => cw h j * exp (d j / (1 - r h))).
  Proof.
    intros E. assert (P := inclusive_pos J grp r inc V h E).
    rewrite <- sumn_scal. unfold inclusive at 1. apply sumn_ext. intros j Hj. unfold cw.
    destruct (Nat.eqb_spec (grp j) h) as [<-|N]; [|rewrite andb_false_r; ring].
    rewrite andb_true_r. unfold within, within_group. destruct (inc j); [|ring].
    replace (V' j / (1 - r (grp j))) with (V j / (1 - r (grp j)) + d j / (1 - r (grp j))) by (unfold d, Rdiv; ring).
    rewrite exp_plus. field. lra.
  Qed.

  Lemma mean_scaled h : sumn J (fun j => cw h j * (d j / (1 - r h))) = mean h / (1 - r h).
  Proof.
    unfold Rdiv at 2. unfold mean. rewrite <- sumn_scal_r. apply sumn_ext. intros j _. unfold cw.
    destruct (Nat.eqb (grp j) h); unfold Rdiv; ring.
  Qed.

  Lemma weight_tangent h : (h < H)%nat -> W h * exp (mean h) <= W' h.
  Proof.
    intros Hh. assert (Rh := Hr h Hh). destruct (some h) eqn:E.
    - unfold W, W'. rewrite !group_weight_inclusive by exact E.
      assert (P := inclusive_pos J grp r inc V h E). assert (P' := inclusive_pos J grp r inc V' h E).
      unfold Rpower. rewrite <- exp_plus. apply exp_le.
      rewrite (inclusive_ratio h E).
      assert (A := exp_average J (cw h) (fun j => d j / (1 - r h)) (cw_nonneg h) (cw_total h E)).
      rewrite mean_scaled in A. rewrite (inclusive_ratio h E) in P'.
      set (T := sumn J (fun j => cw h j * exp (d j / (1 - r h)))) in *.
      assert (PT : 0 < T) by (eapply Rlt_le_trans; [apply exp_pos|exact A]).
      rewrite ln_mult by assumption.
      assert (L : mean h / (1 - r h) <= ln T).
      { rewrite <- (ln_exp (mean h / (1 - r h))).
        destruct A as [A|A]; [left; apply ln_increasing; [apply exp_pos|exact A]|right; rewrite A; reflexivity]. }
      apply (Rmult_le_compat_l (1 - r h)) in L; [|lra].
      replace ((1 - r h) * (mean h / (1 - r h))) with (mean h) in L by (field; lra). lra.
    - unfold W, W', group_weight. fold (some h). rewrite E. lra.
  Qed.

  Lemma weight_tangent_strict h j : (h < H)%nat -> (j < J)%nat -> inc j = true -> grp j = h -> d j <> mean h ->
    W h * exp (mean h) < W' h.
  Proof.
    intros Hh Hj Ej Gj Ne. assert (Rh := Hr h Hh).
    assert (E : some h = true) by (apply existsb_intro with j; [exact Hj|]; rewrite Ej, Gj, Nat.eqb_refl; reflexivity).
    unfold W, W'. rewrite !group_weight_inclusive by exact E.
    assert (P := inclusive_pos J grp r inc V h E). assert (P' := inclusive_pos J grp r inc V' h E).
    unfold Rpower. rewrite <- exp_plus. apply exp_increasing.
    rewrite (inclusive_ratio h E).
    assert (A := exp_average_strict J (cw h) (fun j => d j / (1 - r h)) j (cw_nonneg h) (cw_total h E) Hj).
    rewrite mean_scaled in A. rewrite (inclusive_ratio h E) in P'.
    assert (Pc : 0 < cw h j) by (unfold cw; rewrite Gj, Nat.eqb_refl; apply within_pos; assumption).
    assert (Nd : d j / (1 - r h) <> mean h / (1 - r h)).
    { intros Q. apply Ne. apply (f_equal (fun z => z * (1 - r h))) in Q. unfold Rdiv in Q.
      rewrite !Rmult_assoc, Rinv_l, !Rmult_1_r in Q by lra. exact Q. }
    specialize (A Pc Nd).
    set (T := sumn J (fun j => cw h j * exp (d j / (1 - r h)))) in *.
    assert (PT : 0 < T) by (eapply Rlt_trans; [apply exp_pos|exact A]).
    rewrite ln_mult by assumption.
    assert (L : mean h / (1 - r h) < ln T).
    { rewrite <- (ln_exp (mean h / (1 - r h))). apply ln_increasing; [apply exp_pos|exact A]. }
    apply (Rmult_lt_compat_l (1 - r h)) in L; [|lra].
    replace ((1 - r h) * (mean h / (1 - r h))) with (mean h) in L by (field; lra). lra.
  Qed.

  Let total := 1 + sumn H W.
  Let q (h : nat) : R := if Nat.ltb h H then W h / total else / total.
  Let e (h : nat) : R := if Nat.ltb h H then mean h else 0.
  Lemma total_pos : 0 < total.
  Proof. unfold total, W. assert (A := weights_nonneg J H grp r inc V). lra. Qed.
  Lemma q_nonneg h : (h < S H)%nat -> 0 <= q h.
  Proof.
    intros _. assert (P := total_pos). assert (0 < / total) by (apply Rinv_0_lt_compat; exact P).
    unfold q. destruct (Nat.ltb h H); [|lra]. unfold Rdiv. apply Rmult_le_pos; [apply group_weight_nonneg|lra].
  Qed.
  Lemma q_sum f : sumn (S H) (fun h => q h * f h) = (sumn H (fun h => W h * f h) + f H) / total.
  Proof.
    cbn [sumn]. unfold q at 2. rewrite Nat.ltb_irrefl. unfold Rdiv. rewrite Rmult_plus_distr_r, <- sumn_scal_r.
    f_equal; [|ring]. apply sumn_ext. intros h Hh. unfold q. apply Nat.ltb_lt in Hh. rewrite Hh. unfold Rdiv. ring.
  Qed.
  Lemma q_total : sumn (S H) q = 1.
  Proof.
    assert (P := total_pos). rewrite (sumn_ext (S H) q (fun h => q h * 1)) by (intros; ring).
    rewrite (q_sum (fun _ => 1)). rewrite (sumn_ext H _ W) by (intros; ring). unfold total in *. field. lra.
  Qed.
  Let D := sumn J (fun j => nested J H grp r inc true V j * d j).
  Lemma mean_total : sumn (S H) (fun h => q h * e h) = D.
  Proof.
    assert (P := total_pos). rewrite q_sum. unfold e at 2. rewrite Nat.ltb_irrefl, Rplus_0_r.
    unfold D. rewrite (sumn_by_group J H grp _ Hg). unfold Rdiv. rewrite <- sumn_scal_r. apply sumn_ext. intros h Hh.
    unfold e. assert (Hb : Nat.ltb h H = true) by (apply Nat.ltb_lt; exact Hh). rewrite Hb. unfold mean.
    rewrite Rmult_comm, <- Rmult_assoc, <- sumn_scal. apply sumn_ext. intros j Hj.
    destruct (Nat.eqb_spec (grp j) h) as [<-|N]; [|ring]. unfold nested, group_share, within, W, total. cbn [indR].
    fold W. unfold total in P. unfold Rdiv. ring.
  Qed.
  Lemma weighted_total : sumn H (fun h => W h * exp (mean h)) + 1 = total * sumn (S H) (fun h => q h * exp (e h)).
  Proof.
    assert (P := total_pos). rewrite q_sum. unfold e at 2. rewrite Nat.ltb_irrefl, exp_0.
    rewrite (sumn_ext H (fun h => W h * exp (e h)) (fun h => W h * exp (mean h))).
    - field. lra.
    - intros h Hh. unfold e. apply Nat.ltb_lt in Hh. rewrite Hh. reflexivity.
  Qed.

  Lemma ln_le_ext x y : 0 < x -> x <= y -> ln x <= ln y.
  Proof. intros P [L|L]; [left; apply ln_increasing; assumption|right; rewrite L; reflexivity]. Qed.

  Lemma logsum_tangent : ln (1 + sumn H W) + D <= ln (1 + sumn H W').
  Proof.
    assert (P := total_pos). rewrite <- (ln_exp D), <- ln_mult by (try exact P; apply exp_pos).
    apply ln_le_ext; [apply Rmult_lt_0_compat; [exact P|apply exp_pos]|]. fold total.
    apply Rle_trans with (total * sumn (S H) (fun h => q h * exp (e h))).
    - apply Rmult_le_compat_l; [lra|]. rewrite <- mean_total. apply exp_average; [exact q_nonneg|exact q_total].
    - rewrite <- weighted_total. assert (A := sumn_le H _ _ weight_tangent). lra.
  Qed.

  Lemma logsum_tangent_strict j : (j < J)%nat -> inc j = true -> V' j <> V j ->
    ln (1 + sumn H W) + D < ln (1 + sumn H W').
  Proof.
    intros Hj Ej Ne. assert (P := total_pos). rewrite <- (ln_exp D), <- ln_mult by (try exact P; apply exp_pos).
    apply ln_increasing; [apply Rmult_lt_0_compat; [exact P|apply exp_pos]|]. fold total.
    assert (A := sumn_le H _ _ weight_tangent).
    assert (B := exp_average (S H) q e q_nonneg q_total). rewrite mean_total in B.
    assert (B' : total * exp D <= total * sumn (S H) (fun h => q h * exp (e h))) by (apply Rmult_le_compat_l; lra).
    rewrite <- weighted_total in B'.
    assert (Pq : 0 < q H).
    { unfold q. rewrite Nat.ltb_irrefl. apply Rinv_0_lt_compat; exact P. }
    set (h := grp j). assert (Hh : (h < H)%nat) by (apply Hg; exact Hj).
    assert (Pw : 0 < W h).
    { unfold W, group_weight.
      assert (E : existsb (fun k => inc k && Nat.eqb (grp k) h) (seq 0 J) = true)
        by (apply existsb_intro with j; [exact Hj|]; rewrite Ej; unfold h; rewrite Nat.eqb_refl; reflexivity).
      rewrite E. apply Rpower_pos. }
    destruct (Req_dec (d j) (mean h)) as [Q|Q].
    - assert (C : total * exp D < total * sumn (S H) (fun h => q h * exp (e h))).
      { apply Rmult_lt_compat_l; [exact P|]. rewrite <- mean_total.
        destruct (Req_dec D 0) as [Z|Z].
        - apply (exp_average_strict (S H) q e h q_nonneg q_total); [lia| |].
          + unfold q. assert (Hb : Nat.ltb h H = true) by (apply Nat.ltb_lt; exact Hh). rewrite Hb. apply Rdiv_lt_0_compat; assumption.
          + rewrite mean_total, Z. unfold e. assert (Hb : Nat.ltb h H = true) by (apply Nat.ltb_lt; exact Hh). rewrite Hb, <- Q.
            unfold d. lra.
        - apply (exp_average_strict (S H) q e H q_nonneg q_total); [lia|exact Pq|].
          rewrite mean_total. unfold e. rewrite Nat.ltb_irrefl. lra. }
      rewrite <- weighted_total in C. lra.
    - assert (C : sumn H (fun h => W h * exp (mean h)) < sumn H W').
      { apply sumn_lt; [exact weight_tangent|]. exists h. split; [exact Hh|].
        apply weight_tangent_strict with j; auto. }
      lra.
  Qed.
End Tangent.

(* ---------- agents ---------- *)

(** Probabilities of agents, with any choice set. *)
Definition chosen (m : market) (avail : option (nat -> bool)) (mask : option (nat -> bool)) (delta mu : nat -> R) (j : nat) : R :=
  fst (probabilities_linear m (choice_with true avail None mask) true delta mu) j.

Definition log_sum (m : market) (avail : option (nat -> bool)) (mask : option (nat -> bool)) (delta mu : nat -> R) : R :=
  ln (1 + surplus_weights m (included avail None mask) (utility m delta mu)).

Lemma chosen_tangent m avail mask delta mu delta' mu' : valid_market m ->
  log_sum m avail mask delta mu
  + sumn (mJ m) (fun j => chosen m avail mask delta mu j * (utility m delta' mu' j - utility m delta mu j))
  <= log_sum m avail mask delta' mu'.
Proof.
  intros V. assert (T := logsum_tangent (mJ m) (grpn m) (gidx m) (grhox m) (included avail None mask)
    (fun j Hj => gidx_lt m j V Hj) (fun h Hh => grhox_lt m h V Hh) (utility m delta mu) (utility m delta' mu')).
  unfold log_sum, surplus_weights.
  rewrite (sumn_ext (mJ m) _ (fun j => nested (mJ m) (grpn m) (gidx m) (grhox m) (included avail None mask) true (utility m delta mu) j
             * (utility m delta' mu' j - utility m delta mu j))); [exact T|].
  intros j Hj. unfold chosen. rewrite probabilities_nested by assumption. reflexivity.
Qed.

Lemma chosen_tangent_strict m avail mask delta mu delta' mu' j : valid_market m ->
  (j < mJ m)%nat -> included avail None mask j = true -> utility m delta' mu' j <> utility m delta mu j ->
  log_sum m avail mask delta mu
  + sumn (mJ m) (fun j => chosen m avail mask delta mu j * (utility m delta' mu' j - utility m delta mu j))
  < log_sum m avail mask delta' mu'.
Proof.
  intros V Hj I Ne. assert (T := logsum_tangent_strict (mJ m) (grpn m) (gidx m) (grhox m) (included avail None mask)
    (fun j Hj => gidx_lt m j V Hj) (fun h Hh => grhox_lt m h V Hh) (utility m delta mu) (utility m delta' mu') j Hj I Ne).
  unfold log_sum, surplus_weights.
  rewrite (sumn_ext (mJ m) _ (fun j => nested (mJ m) (grpn m) (gidx m) (grhox m) (included avail None mask) true (utility m delta mu) j
             * (utility m delta' mu' j - utility m delta mu j))); [exact T|].
  intros k Hk. unfold chosen. rewrite probabilities_nested by assumption. reflexivity.
Qed.

(** Probabilities move with utilities. *)
Lemma chosen_monotone m avail mask delta mu delta' mu' : valid_market m ->
  0 <= sumn (mJ m) (fun j => (utility m delta' mu' j - utility m delta mu j)
                             * (chosen m avail mask delta' mu' j - chosen m avail mask delta mu j)).
Proof.
  intros V. assert (A := chosen_tangent m avail mask delta mu delta' mu' V).
  assert (B := chosen_tangent m avail mask delta' mu' delta mu V).
  rewrite (sumn_ext (mJ m) _ (fun j => - (chosen m avail mask delta' mu' j * (utility m delta mu j - utility m delta' mu' j))
     - chosen m avail mask delta mu j * (utility m delta' mu' j - utility m delta mu j))) by (intros; ring).
  rewrite sumn_minus, sumn_opp. lra.
Qed.

Lemma chosen_monotone_strict m avail mask delta mu delta' mu' j : valid_market m ->
  (j < mJ m)%nat -> included avail None mask j = true -> utility m delta' mu' j <> utility m delta mu j ->
  0 < sumn (mJ m) (fun j => (utility m delta' mu' j - utility m delta mu j)
                             * (chosen m avail mask delta' mu' j - chosen m avail mask delta mu j)).
Proof.
  intros V Hj I Ne. assert (A := chosen_tangent_strict m avail mask delta mu delta' mu' j V Hj I Ne).
  assert (B := chosen_tangent m avail mask delta' mu' delta mu V).
  rewrite (sumn_ext (mJ m) _ (fun j => - (chosen m avail mask delta' mu' j * (utility m delta mu j - utility m delta' mu' j))
     - chosen m avail mask delta mu j * (utility m delta' mu' j - utility m delta mu j))) by (intros; ring).
  rewrite sumn_minus, sumn_opp. lra.
Qed.

Lemma probs_chosen m delta mu i j : probs m delta mu i j = chosen m None None delta (mu i) j.
Proof. unfold probs, chosen. rewrite full_choice_with. reflexivity. Qed.

(* ---------- markets ---------- *)

(** Shares of agents who choose from the given sets. *)
Definition limited_shares (M : full_market) (avail : nat -> option (nat -> bool)) (mask : option (nat -> bool))
    (x : nat -> R) (j : nat) : R :=
  sumn (fI M) (fun i => fst (probabilities_linear (fm M) (choice_with true (avail i) None mask) true
                               (update_delta M x) (update_mu M x i)) j * fw M i).

Section Markets.
  Variables (M : full_market) (avail : nat -> option (nat -> bool)) (mask : option (nat -> bool)) (a : nat -> R).
  Hypothesis V : valid_market (fm M).
  Hypothesis Ha : forall i, (i < fI M)%nat -> 0 < a i.
  Hypothesis Hw : forall i, (i < fI M)%nat -> 0 <= fw M i.
  Hypothesis Hq : forall i, (i < fI M)%nat -> quasilinear (mJ (fm M)) (price_utility M i) (a i).
  Let m := fm M.
  Let J := mJ m.
  Let s := limited_shares M avail mask.
  Let u (x : nat -> R) (i j : nat) : R := utility m (update_delta M x) (update_mu M x i) j.
  Let P (x : nat -> R) (i j : nat) : R := chosen m (avail i) mask (update_delta M x) (update_mu M x i) j.

  Lemma utility_moves x x' i j : (i < fI M)%nat -> (j < J)%nat ->
    u x' i j - u x i j = - (a i / eps_scale m) * (x' j - x j).
  Proof.
    intros Hi Hj. assert (E := Hq i Hi x x' j Hj). unfold price_utility in E. assert (Z := vm_eps _ V). fold m in Z.
    unfold u, utility. transitivity ((update_delta M x' j + update_mu M x' i j - (update_delta M x j + update_mu M x i j)) / eps_scale m); [field; lra|].
    rewrite E. field. lra.
  Qed.

  Lemma rate_pos i : (i < fI M)%nat -> 0 < a i / eps_scale m.
  Proof. intros Hi. apply Rdiv_lt_0_compat; [apply Ha; exact Hi|exact (vm_eps _ V)]. Qed.

  Lemma change_by_agent x x' :
    sumn J (fun j => (x' j - x j) * (s x' j - s x j))
    = sumn (fI M) (fun i => - (fw M i / (a i / eps_scale m)) * sumn J (fun j => (u x' i j - u x i j) * (P x' i j - P x i j))).
  Proof.
    transitivity (sumn J (fun j => sumn (fI M) (fun i => fw M i * ((x' j - x j) * (P x' i j - P x i j))))).
    - apply sumn_ext. intros j Hj. unfold s, limited_shares. rewrite <- sumn_minus, <- sumn_scal. apply sumn_ext.
      intros i Hi. unfold P, chosen. fold m. ring.
    - rewrite sumn_swap. apply sumn_ext. intros i Hi. rewrite <- sumn_scal. apply sumn_ext. intros j Hj.
      rewrite utility_moves by assumption. assert (A := rate_pos i Hi). field. split.
      + assert (Z := vm_eps _ V). fold m in Z. lra.
      + assert (B := Ha i Hi). lra.
  Qed.

  Lemma law_of_demand : obeys_law J s.
  Proof.
    intros x x'. rewrite change_by_agent. rewrite <- (sumn_zero (fI M)). apply sumn_le. intros i Hi.
    assert (A := chosen_monotone m (avail i) mask (update_delta M x) (update_mu M x i) (update_delta M x') (update_mu M x' i) V).
    fold (P x i) (P x' i) (u x i) (u x' i) in A. fold J in A.
    set (T := sumn J (fun j => (u x' i j - u x i j) * (P x' i j - P x i j))) in *.
    assert (0 <= T) by exact A.
    assert (0 <= fw M i / (a i / eps_scale m)).
    { unfold Rdiv at 1. apply Rmult_le_pos; [apply Hw; exact Hi|]. left. apply Rinv_0_lt_compat, rate_pos, Hi. }
    assert (0 <= fw M i / (a i / eps_scale m) * T) by (apply Rmult_le_pos; assumption). lra.
  Qed.

  Lemma law_strict x x' i j : (i < fI M)%nat -> 0 < fw M i -> (j < J)%nat -> included (avail i) None mask j = true ->
    x' j <> x j -> sumn J (fun j => (x' j - x j) * (s x' j - s x j)) < 0.
  Proof.
    intros Hi Pw Hj I Ne. rewrite change_by_agent. rewrite <- (sumn_zero (fI M)).
    assert (L : forall l, (l < fI M)%nat -> 0 <= fw M l / (a l / eps_scale m)).
    { intros l Hl. unfold Rdiv at 1. apply Rmult_le_pos; [apply Hw; exact Hl|]. left. apply Rinv_0_lt_compat, rate_pos, Hl. }
    apply sumn_lt.
    - intros l Hl.
      assert (A := chosen_monotone m (avail l) mask (update_delta M x) (update_mu M x l) (update_delta M x') (update_mu M x' l) V).
      set (T := sumn J (fun j => (u x' l j - u x l j) * (P x' l j - P x l j))). assert (0 <= T) by exact A.
      assert (0 <= fw M l / (a l / eps_scale m) * T) by (apply Rmult_le_pos; [apply L; exact Hl|assumption]). lra.
    - exists i. split; [exact Hi|].
      assert (Nu : utility m (update_delta M x') (update_mu M x' i) j <> utility m (update_delta M x) (update_mu M x i) j).
      { intros Q. assert (E := utility_moves x x' i j Hi Hj). unfold u in E. rewrite Q in E.
        assert (R0 := rate_pos i Hi). assert (Z : a i / eps_scale m * (x' j - x j) = 0) by lra.
        apply Rmult_integral in Z. destruct Z as [Z|Z]; [lra|]. apply Ne. lra. }
      assert (A := chosen_monotone_strict m (avail i) mask (update_delta M x) (update_mu M x i) (update_delta M x') (update_mu M x' i) j V Hj I Nu).
      set (T := sumn J (fun j => (u x' i j - u x i j) * (P x' i j - P x i j))). assert (0 < T) by exact A.
      assert (0 < fw M i / (a i / eps_scale m)) by (apply Rdiv_lt_0_compat; [exact Pw|apply rate_pos, Hi]).
      assert (0 < fw M i / (a i / eps_scale m) * T) by (apply Rmult_lt_0_compat; assumption). lra.
  Qed.

  (** Consumer surplus. *)
  Hypothesis G : good_columns M (var0 M).
  Hypothesis E1 : eps_scale (fm M) = 1.
  Let av (i : nat) := option_map (fun b j => indR (b j)) (avail i).

  Lemma rate_is_derivative i : (i < fI M)%nat -> utility_derivatives M false (var0 M) i 0 = - a i.
  Proof.
    intros Hi. assert (HJ := vm_J _ V).
    assert (D := utility_curve M (var0 M) 0 i 0 V G HJ). rewrite Nat.eqb_refl in D.
    eapply dlim_unique; [exact D|].
    apply dlim_ext with (fun t => price_utility M i (var0 M) 0 + - a i * (t - var0 M 0%nat)).
    - intros t. assert (E := Hq i Hi (var0 M) (upd (var0 M) 0 t) 0%nat HJ). unfold upd at 2 in E. cbn [Nat.eqb] in E.
      unfold utility. rewrite E1. unfold price_utility in *. unfold Rdiv. rewrite Rinv_1, Rmult_1_r. lra.
    - apply dlim_eq with (0 + - a i * (1 - 0)); [ring|]. apply dlim_plus; [apply dlim_const|].
      apply (dlim_scal (- a i) (fun t => t - var0 M 0%nat)). apply dlim_minus; [apply dlim_id|apply dlim_const].
  Qed.

  Lemma surplus_is_log_sum x i : (i < fI M)%nat ->
    individual_surplus M av mask x i = log_sum m (avail i) mask (update_delta M x) (update_mu M x i) / a i.
  Proof.
    intros Hi. unfold individual_surplus, av. rewrite surplus_numerator_exact by exact V.
    rewrite rate_is_derivative by exact Hi. rewrite Ropp_involutive. unfold log_sum. fold m. f_equal. f_equal. f_equal.
    f_equal. apply functional_extensionality. intros k. unfold utility, m. rewrite E1. unfold Rdiv. rewrite Rinv_1. ring.
  Qed.

  Lemma surplus_above x x' : - extra_cost J (s x) x x' <= consumer_surplus M av mask x' - consumer_surplus M av mask x.
  Proof.
    unfold consumer_surplus. rewrite <- sumn_minus. unfold extra_cost.
    assert (E : - sumn J (fun j => s x j * (x' j - x j))
      = sumn (fI M) (fun i => sumn J (fun j => - (P x i j * (x' j - x j)) * fw M i))).
    { rewrite sumn_swap, <- sumn_opp. apply sumn_ext. intros j Hj. unfold s, limited_shares. rewrite <- sumn_scal_r, <- sumn_opp.
      apply sumn_ext. intros i Hi. unfold P, chosen. fold m. ring. }
    rewrite E. apply sumn_le. intros i Hi. rewrite !surplus_is_log_sum by exact Hi. rewrite sumn_scal_r.
    rewrite <- Rmult_minus_distr_r. apply Rmult_le_compat_r; [apply Hw; exact Hi|].
    assert (A := chosen_tangent m (avail i) mask (update_delta M x) (update_mu M x i) (update_delta M x') (update_mu M x' i) V).
    fold (P x i) (u x i) (u x' i) in A.
    assert (B := Ha i Hi). apply Rmult_le_reg_r with (a i); [exact B|].
    replace ((log_sum m (avail i) mask (update_delta M x') (update_mu M x' i) / a i
      - log_sum m (avail i) mask (update_delta M x) (update_mu M x i) / a i) * a i)
      with (log_sum m (avail i) mask (update_delta M x') (update_mu M x' i) - log_sum m (avail i) mask (update_delta M x) (update_mu M x i)) by (field; lra).
    rewrite <- sumn_scal_r.
    rewrite (sumn_ext J _ (fun j => P x i j * (u x' i j - u x i j))).
    - assert (A' : log_sum m (avail i) mask (update_delta M x) (update_mu M x i) + sumn J (fun j => P x i j * (u x' i j - u x i j))
         <= log_sum m (avail i) mask (update_delta M x') (update_mu M x' i)) by exact A. lra.
    - intros j Hj. rewrite utility_moves by assumption. unfold m. rewrite E1. unfold Rdiv. rewrite Rinv_1. ring.
  Qed.

  Lemma surplus_below x x' : consumer_surplus M av mask x' - consumer_surplus M av mask x <= - extra_cost J (s x') x x'.
  Proof.
    assert (A := surplus_above x' x).
    assert (E : extra_cost J (s x') x' x = - extra_cost J (s x') x x').
    { unfold extra_cost. rewrite <- sumn_opp. apply sumn_ext. intros; ring. }
    rewrite E in A. lra.
  Qed.

  Lemma surplus_convex x x' t : 0 <= t <= 1 ->
    consumer_surplus M av mask (fun j => (1 - t) * x j + t * x' j)
    <= (1 - t) * consumer_surplus M av mask x + t * consumer_surplus M av mask x'.
  Proof.
    intros Ht. set (y := fun j => (1 - t) * x j + t * x' j).
    assert (A := surplus_above y x). assert (B := surplus_above y x').
    assert (E : (1 - t) * extra_cost J (s y) y x + t * extra_cost J (s y) y x' = 0).
    { unfold extra_cost. rewrite <- !sumn_scal, <- sumn_plus, <- (sumn_zero J). apply sumn_ext. intros j _. unfold y. ring. }
    apply (Rmult_le_compat_l (1 - t)) in A; [|lra]. apply (Rmult_le_compat_l t) in B; [|lra]. lra.
  Qed.
End Markets.

(* ---------- everyone can choose everything ---------- *)

Lemma shares_limited M x j : shares_at M x j = limited_shares M (fun _ => None) None x j.
Proof. unfold shares_at, limited_shares. apply sumn_ext. intros i _. rewrite probs_chosen. reflexivity. Qed.

Lemma shares_law M a : valid_market (fm M) ->
  (forall i, (i < fI M)%nat -> 0 < a i) -> (forall i, (i < fI M)%nat -> 0 <= fw M i) ->
  (forall i, (i < fI M)%nat -> quasilinear (mJ (fm M)) (price_utility M i) (a i)) ->
  obeys_law (mJ (fm M)) (shares_at M).
Proof.
  intros V Ha Hw Hq x x'.
  rewrite (sumn_ext (mJ (fm M)) _ (fun j => (x' j - x j) * (limited_shares M (fun _ => None) None x' j - limited_shares M (fun _ => None) None x j)))
    by (intros; rewrite !shares_limited; reflexivity).
  exact (law_of_demand M (fun _ => None) None a V Ha Hw Hq x x').
Qed.

Lemma shares_law_strict M a : valid_market (fm M) ->
  (forall i, (i < fI M)%nat -> 0 < a i) -> (forall i, (i < fI M)%nat -> 0 <= fw M i) ->
  (forall i, (i < fI M)%nat -> quasilinear (mJ (fm M)) (price_utility M i) (a i)) ->
  (exists i, (i < fI M)%nat /\ 0 < fw M i) ->
  obeys_law_strictly (mJ (fm M)) (shares_at M).
Proof.
  intros V Ha Hw Hq [i [Hi Pi]] x x' [j [Hj Ne]].
  rewrite (sumn_ext (mJ (fm M)) _ (fun j => (x' j - x j) * (limited_shares M (fun _ => None) None x' j - limited_shares M (fun _ => None) None x j)))
    by (intros; rewrite !shares_limited; reflexivity).
  apply (law_strict M (fun _ => None) None a V Ha Hw Hq x x' i j Hi Pi Hj); [rewrite included_all; reflexivity|exact Ne].
Qed.

(** Strict demand is invertible. *)
Lemma strict_injective J demand : obeys_law_strictly J demand ->
  forall x x', (forall j, (j < J)%nat -> demand x' j = demand x j) -> forall j, (j < J)%nat -> x' j = x j.
Proof.
  intros L x x' E j Hj. destruct (Req_dec (x' j) (x j)) as [Q|Q]; [exact Q|]. exfalso.
  assert (A := L x x' (ex_intro _ j (conj Hj Q))).
  rewrite (sumn_ext J _ (fun _ => 0)), sumn_zero in A; [lra|]. intros k Hk. rewrite (E k Hk). ring.
Qed.

(** One price. *)
Lemma strict_own J demand : obeys_law_strictly J demand ->
  forall x j t, (j < J)%nat -> x j < t -> demand (upd x j t) j < demand x j.
Proof.
  intros L x j t Hj Lt. assert (A := L x (upd x j t)).
  assert (Q : exists k, (k < J)%nat /\ upd x j t k <> x k) by (exists j; split; [exact Hj|]; unfold upd; rewrite Nat.eqb_refl; lra).
  specialize (A Q). rewrite (sumn_single J j) in A; [|exact Hj|].
  - unfold upd at 1 in A. rewrite Nat.eqb_refl in A.
    assert (N : ~ 0 <= demand (upd x j t) j - demand x j); [|lra].
    intros N. assert (0 <= (t - x j) * (demand (upd x j t) j - demand x j)) by (apply Rmult_le_pos; lra). lra.
  - intros k Hk N. unfold upd at 1. destruct (Nat.eqb_spec k j) as [|_]; [contradiction|ring].
Qed.

(** All prices by the same amount. *)
Lemma strict_uniform J demand : obeys_law_strictly J demand -> (0 < J)%nat ->
  forall x t, 0 < t -> sumn J (demand (fun j => x j + t)) < sumn J (demand x).
Proof.
  intros L HJ x t Ht. assert (A := L x (fun j => x j + t)).
  assert (Q : exists k, (k < J)%nat /\ x k + t <> x k) by (exists O; split; [exact HJ|lra]).
  specialize (A Q). cbv beta in A.
  rewrite (sumn_ext J _ (fun j => t * (demand (fun j => x j + t) j - demand x j))) in A by (intros; ring).
  rewrite sumn_scal, sumn_minus in A.
  assert (N : ~ 0 <= sumn J (demand (fun j => x j + t)) - sumn J (demand x)); [|lra].
  intros N. assert (0 <= t * (sumn J (demand (fun j => x j + t)) - sumn J (demand x))) by (apply Rmult_le_pos; lra). lra.
Qed.

(* ---------- mean utilities ---------- *)

Lemma delta_monotone m a delta delta' : valid_market m -> (forall i, (i < aI a)%nat -> 0 <= aw a i) ->
  (exists i, (i < aI a)%nat /\ 0 < aw a i) -> (exists j, (j < mJ m)%nat /\ delta' j <> delta j) ->
  0 < sumn (mJ m) (fun j => (delta' j - delta j) * (market_shares m a true delta' j - market_shares m a true delta j)).
Proof.
  intros V Hw [i0 [Hi0 P0]] [j0 [Hj0 N0]]. assert (Z := vm_eps _ V).
  assert (EU : forall i j, delta' j - delta j = eps_scale m * (utility m delta' (amu a i) j - utility m delta (amu a i) j)).
  { intros i j. unfold utility. field. lra. }
  assert (E : sumn (mJ m) (fun j => (delta' j - delta j) * (market_shares m a true delta' j - market_shares m a true delta j))
    = sumn (aI a) (fun i => aw a i * eps_scale m * sumn (mJ m) (fun j => (utility m delta' (amu a i) j - utility m delta (amu a i) j)
          * (chosen m None None delta' (amu a i) j - chosen m None None delta (amu a i) j)))).
  { transitivity (sumn (mJ m) (fun j => sumn (aI a) (fun i => aw a i * ((delta' j - delta j)
        * (chosen m None None delta' (amu a i) j - chosen m None None delta (amu a i) j))))).
    - apply sumn_ext. intros j Hj. unfold market_shares. rewrite <- sumn_minus, <- sumn_scal. apply sumn_ext. intros i Hi.
      unfold chosen. rewrite full_choice_with. ring.
    - rewrite sumn_swap. apply sumn_ext. intros i Hi. rewrite <- sumn_scal. apply sumn_ext. intros j Hj.
      rewrite (EU i j). ring. }
  rewrite E. apply sumn_pos.
  - intros i Hi. apply Rmult_le_pos; [apply Rmult_le_pos; [apply Hw; exact Hi|lra]|]. apply chosen_monotone; exact V.
  - exists i0. split; [exact Hi0|]. apply Rmult_lt_0_compat; [apply Rmult_lt_0_compat; lra|].
    apply chosen_monotone_strict with j0; [exact V|exact Hj0|rewrite included_all; reflexivity|].
    intros Q. apply N0. assert (EU' := EU i0 j0). rewrite Q in EU'. lra.
Qed.

(* ---------- Jacobians ---------- *)

Lemma slope_linear m P C v j : prob_slope m P C v j = sumn (mJ m) (fun l => prob_slope m P C (fun k => if Nat.eqb k l then v l else 0) j) \/ (mJ m <= j)%nat.
Proof.
  destruct (Nat.lt_ge_cases j (mJ m)) as [Hj|Hj]; [left|right; exact Hj]. unfold prob_slope.
  rewrite sumn_scal. f_equal. rewrite sumn_minus.
  assert (A1 : sumn (mJ m) (fun l => if Nat.eqb j l then v l else 0) = v j).
  { rewrite (sumn_ext (mJ m) _ (fun l => if Nat.eqb l j then v l else 0)) by (intros l _; rewrite Nat.eqb_sym; reflexivity).
    apply sumn_delta; exact Hj. }
  assert (A2 : forall f, sumn (mJ m) (fun l => sumn (mJ m) (fun k => f k * (if Nat.eqb k l then v l else 0))) = sumn (mJ m) (fun k => f k * v k)).
  { intros f. rewrite sumn_swap. apply sumn_ext. intros k Hk. rewrite sumn_scal. f_equal.
    rewrite (sumn_ext (mJ m) _ (fun l => if Nat.eqb l k then v l else 0)) by (intros l _; rewrite Nat.eqb_sym; reflexivity).
    apply sumn_delta; exact Hk. }
  f_equal; [|symmetry; apply (A2 P)].
  destruct (Nat.eqb (mH m) 0); [symmetry; exact A1|].
  rewrite sumn_minus, sumn_scal. unfold Rdiv at 3. rewrite sumn_scal_r, A1. unfold Rdiv. f_equal. f_equal.
  rewrite (sumn_ext (mJ m) (fun l => sumn (mJ m) (fun k => membership m j k * (C k * (if Nat.eqb k l then v l else 0))))
     (fun l => sumn (mJ m) (fun k => membership m j k * C k * (if Nat.eqb k l then v l else 0)))) by (intros; apply sumn_ext; intros; ring).
  rewrite (A2 (fun k => membership m j k * C k)). apply sumn_ext. intros; ring.
Qed.

Lemma jacobian_direction M x v j : valid_market (fm M) -> (j < mJ (fm M))%nat ->
  sumn (mJ (fm M)) (fun l => shares_jacobian M x j l * v l)
  = sumn (fI M) (fun i => prob_slope (fm M) (probs (fm M) (update_delta M x) (update_mu M x) i)
       (conds (fm M) (update_delta M x) (update_mu M x) i) (fun k => utility_derivatives M false x i k * v k) j * fw M i).
Proof.
  intros V Hj. set (m := fm M). set (P := probs m (update_delta M x) (update_mu M x)). set (C := conds m (update_delta M x) (update_mu M x)).
  set (U := utility_derivatives M false x).
  transitivity (sumn (mJ m) (fun l => sumn (fI M) (fun i => prob_slope m (P i) (C i) (fun k => if Nat.eqb k l then U i l * v l else 0) j * fw M i))).
  - apply sumn_ext. intros l Hl. unfold shares_jacobian, jacobian_of, capital_lamda, capital_gamma. fold m P C U.
    assert (S : forall i, prob_slope m (P i) (C i) (fun k => if Nat.eqb k l then U i l * v l else 0) j
      = (if Nat.eqb j l then (if Nat.eqb (mH m) 0 then P i j * (U i l * v l) else P i j * (U i l * v l) / (1 - rho m j)) else 0)
        - (if Nat.eqb (mH m) 0 then P i j * (P i l * (U i l * v l))
           else P i j * (P i l * (U i l * v l)) + rho m j / (1 - rho m j) * membership m j l * (C i j * (P i l * (U i l * v l))))).
    { intros i. exact (prob_slope_single m true (update_delta M x) (update_mu M x i) (U i l * v l) l j V Hj Hl). }
    rewrite (sumn_ext (fI M) _ _ (fun i _ => f_equal (fun z => z * fw M i) (S i))).
    destruct (Nat.eqb (mH m) 0); destruct (Nat.eqb_spec j l) as [<-|N].
    + rewrite <- sumn_minus, <- sumn_scal_r. apply sumn_ext. intros; ring.
    + rewrite Rminus_0_l, <- sumn_opp, <- sumn_scal_r. apply sumn_ext. intros; ring.
    + unfold Rdiv at 1. rewrite <- sumn_scal, <- sumn_plus, <- sumn_scal_r, <- sumn_minus, <- sumn_scal_r. apply sumn_ext. intros; unfold Rdiv; ring.
    + rewrite Rminus_0_l, <- sumn_scal, <- sumn_plus, <- sumn_opp, <- sumn_scal_r. apply sumn_ext. intros; ring.
  - rewrite sumn_swap. apply sumn_ext. intros i Hi. rewrite sumn_scal_r. f_equal.
    destruct (slope_linear m (P i) (C i) (fun k => U i k * v k) j) as [E|E]; [rewrite E; reflexivity|unfold m in E; lia].
Qed.

(** A function that does not rise to the right has no positive slope. *)
Lemma slope_nonpos g l : derivable_pt_lim g 0 l -> (forall t, 0 < t -> g t <= g 0) -> l <= 0.
Proof.
  intros D N. apply Rnot_lt_le. intros P. destruct (D (l / 2) ltac:(lra)) as [[dl Pd] Hd]. cbn [pos] in Hd.
  assert (A := Hd (dl / 2) ltac:(lra)). rewrite Rabs_right in A by lra. specialize (A ltac:(lra)).
  rewrite Rplus_0_l in A. assert (B := N (dl / 2) ltac:(lra)).
  assert (C : (g (dl / 2) - g 0) / (dl / 2) <= 0).
  { unfold Rdiv at 1. apply Rmult_le_reg_r with (dl / 2); [lra|]. rewrite Rmult_assoc, Rinv_l by lra. lra. }
  apply Rabs_def2 in A. lra.
Qed.

Lemma jacobian_definite M a x v : valid_market (fm M) -> good_columns M x ->
  (forall i, (i < fI M)%nat -> 0 < a i) -> (forall i, (i < fI M)%nat -> 0 <= fw M i) ->
  (forall i, (i < fI M)%nat -> quasilinear (mJ (fm M)) (price_utility M i) (a i)) ->
  quadratic (mJ (fm M)) (shares_jacobian M x) v <= 0.
Proof.
  intros V G Ha Hw Hq. set (m := fm M). set (J := mJ m).
  assert (HU : forall i j, (i < fI M)%nat -> (j < J)%nat -> utility_derivatives M false x i j = - (a i / eps_scale m)).
  { intros i j Hi Hj. assert (D := utility_curve M x j i j V G Hj). rewrite Nat.eqb_refl in D.
    eapply dlim_unique; [exact D|].
    apply dlim_ext with (fun t => utility m (update_delta M x) (update_mu M x i) j + - (a i / eps_scale m) * (t - x j)).
    - intros t. assert (E := utility_moves M a V Hq x (upd x j t) i j Hi Hj). assert (Q : upd x j t j = t) by (unfold upd; rewrite Nat.eqb_refl; reflexivity). rewrite Q in E. unfold m in *. cbv beta in E. lra.
    - apply dlim_eq with (0 + - (a i / eps_scale m) * (1 - 0)); [ring|]. apply dlim_plus; [apply dlim_const|].
      apply (dlim_scal (- (a i / eps_scale m)) (fun t => t - x j)). apply dlim_minus; [apply dlim_id|apply dlim_const]. }
  set (y := fun t j => x j + t * v j).
  assert (Y0 : y 0 = x).
  { unfold y. apply functional_extensionality. intros j. ring. }
  apply slope_nonpos with (fun t => sumn J (fun j => v j * shares_at M (y t) j)).
  - unfold quadratic. apply (dlim_sumn J (fun j t => v j * shares_at M (y t) j)). intros j Hj.
    rewrite (sumn_ext J _ (fun k => v j * (shares_jacobian M x j k * v k))) by (intros; ring). rewrite sumn_scal.
    apply (dlim_scal (v j) (fun t => shares_at M (y t) j)). unfold J, m. rewrite (jacobian_direction M x v j V Hj). fold m.
    unfold shares_at. apply (dlim_sumn (fI M) (fun i t => probs (fm M) (update_delta M (y t)) (update_mu M (y t)) i j * fw M i)).
    intros i Hi. apply dlim_scal_r.
    assert (D := prob_derive m true (fun t => update_delta M (y t)) (fun t => update_mu M (y t) i) 0
                   (fun k => utility_derivatives M false x i k * v k) j V Hj).
    cbv zeta in D. change (fun t => update_delta M (y t)) with (fun t => update_delta M (y t)) in D. cbv beta in D. rewrite Y0 in D. apply D. intros k Hk.
    apply dlim_ext with (fun t => utility m (update_delta M x) (update_mu M x i) k + - (a i / eps_scale m) * v k * t).
    + intros t. assert (E := utility_moves M a V Hq x (y t) i k Hi Hk). fold m in E.
      replace (y t k - x k) with (t * v k) in E by (unfold y; ring). lra.
    + apply dlim_eq with (0 + - (a i / eps_scale m) * v k * 1); [rewrite (HU i k Hi Hk); ring|]. apply dlim_plus; [apply dlim_const|].
      apply (dlim_scal (- (a i / eps_scale m) * v k) (fun t => t)). apply dlim_id.
  - intros t Ht. rewrite Y0. assert (L := shares_law M a V Ha Hw Hq x (y t)).
    rewrite (sumn_ext (mJ (fm M)) _ (fun j => t * (v j * shares_at M (y t) j - v j * shares_at M x j))) in L by (intros; unfold y at 1; ring).
    rewrite sumn_scal, sumn_minus in L. fold m in L. fold J in L.
    apply Rnot_lt_le. intros N.
    assert (0 < t * (sumn J (fun j => v j * shares_at M (y t) j) - sumn J (fun j => v j * shares_at M x j))) by (apply Rmult_lt_0_compat; lra). lra.
Qed.

Lemma quasilinear_symmetric M a x j k : valid_market (fm M) -> good_columns M x ->
  (forall i, (i < fI M)%nat -> quasilinear (mJ (fm M)) (price_utility M i) (a i)) ->
  (j < mJ (fm M))%nat -> (k < mJ (fm M))%nat -> shares_jacobian M x j k = shares_jacobian M x k j.
Proof.
  intros V G Hq Hj Hk. apply jacobian_symmetric; try assumption. intros i Hi.
  assert (HU : forall l, (l < mJ (fm M))%nat -> utility_derivatives M false x i l = - (a i / eps_scale (fm M))).
  { intros l Hl. assert (D := utility_curve M x l i l V G Hl). rewrite Nat.eqb_refl in D.
    eapply dlim_unique; [exact D|].
    apply dlim_ext with (fun t => utility (fm M) (update_delta M x) (update_mu M x i) l + - (a i / eps_scale (fm M)) * (t - x l)).
    - intros t. assert (E := utility_moves M a V Hq x (upd x l t) i l Hi Hl). assert (Q : upd x l t l = t) by (unfold upd; rewrite Nat.eqb_refl; reflexivity). rewrite Q in E. cbv beta in E. lra.
    - apply dlim_eq with (0 + - (a i / eps_scale (fm M)) * (1 - 0)); [ring|]. apply dlim_plus; [apply dlim_const|].
      apply (dlim_scal (- (a i / eps_scale (fm M))) (fun t => t - x l)). apply dlim_minus; [apply dlim_id|apply dlim_const]. }
  rewrite !HU by assumption. reflexivity.
Qed.

(* ---------- price effects that differ across products ---------- *)

Definition unlike_rates (j : nat) : R := if Nat.eqb j 0 then ln (8 / 7) else 10 * ln 8.
Definition unlike_market : full_market := flat_market 2 unlike_rates.

Lemma unlike_utility x i j : utility (fm unlike_market) (update_delta unlike_market x) (update_mu unlike_market x i) j = - (unlike_rates j * x j).
Proof. unfold utility, update_delta, update_mu, compute_mu. simpl. field. Qed.

Lemma unlike_shares x j : (j < 2)%nat ->
  shares_at unlike_market x j = exp (- (unlike_rates j * x j)) / (1 + (exp (- (unlike_rates 0 * x 0%nat)) + exp (- (unlike_rates 1 * x 1%nat)))).
Proof.
  intros Hj. unfold shares_at, probs. change (fI unlike_market) with 1%nat. cbn [sumn]. change (fw unlike_market 0) with 1.
  rewrite full_choice_with.
  destruct (probabilities_spec (fm unlike_market) true true None None None (update_delta unlike_market x) (update_mu unlike_market x 0)
     (flat_valid 2 unlike_rates ltac:(lia))) as [A _].
  destruct (A eq_refl) as [A1 _]. rewrite (A1 j Hj), included_all. unfold logit, all_goods.
  change (mJ (fm unlike_market)) with 2%nat. cbn [sumn indR]. rewrite !unlike_utility. unfold Rdiv. rewrite !Rplus_0_l, Rmult_1_r. reflexivity.
Qed.

Definition unlike_rise (j : nat) : R := if Nat.eqb j 0 then 1 else / 10.
Lemma unlike_against : ~ obeys_law 2 (shares_at unlike_market).
Proof.
  intros L. specialize (L (fun _ => 0) unlike_rise). cbn [sumn] in L. rewrite !unlike_shares in L by lia.
  unfold unlike_rates, unlike_rise in L. cbn [Nat.eqb] in L. rewrite !Rmult_0_r, Ropp_0, exp_0, Rmult_1_r in L.
  replace (10 * ln 8 * / 10) with (ln 8) in L by field. rewrite !exp_Ropp, !exp_ln in L by lra.
  replace (1 / (1 + (1 + 1))) with (/ 3) in L by field.
  replace (/ (8 / 7) / (1 + (/ (8 / 7) + / 8))) with (7 / 16) in L by field.
  replace (/ 8 / (1 + (/ (8 / 7) + / 8))) with (/ 16) in L by field. lra.
Qed.

Lemma unlike_rates_pos j : 0 < unlike_rates j.
Proof.
  assert (forall x, 1 < x -> 0 < ln x) by (intros x Hx; rewrite <- ln_1; apply ln_increasing; lra).
  unfold unlike_rates. destruct (Nat.eqb j 0); [apply H; lra|]. assert (0 < ln 8) by (apply H; lra). lra.
Qed.

Lemma unlike_asymmetric : shares_jacobian unlike_market (fun _ => 0) 0 1 <> shares_jacobian unlike_market (fun _ => 0) 1 0.
Proof.
  unfold unlike_market. rewrite !flat_jacobian by lia. cbn [Nat.eqb]. unfold unlike_rates. cbn [Nat.eqb INR].
  intros E. assert (A : 10 * ln 8 = ln (8 / 7)) by (unfold Rdiv in *; lra).
  assert (0 < ln 8) by (rewrite <- ln_1; apply ln_increasing; lra). assert (ln (8 / 7) < ln 8) by (apply ln_increasing; lra). lra.
Qed.
