(** Lemmas about estimation results. *)
From Coq Require Import Reals Lra Lia List Bool Arith ZArith.
From Verif Require Import Base ResultsModel ResultsSpec.
Import ListNotations.
Local Open Scope R_scope.

Lemma beside_nth {A} (a b : list (list A)) q : List.length a = List.length b ->
  nth q (beside a b) [] = nth q a [] ++ nth q b [].
Proof.
  revert b q. induction a as [|x a IH]; intros [|y b] q H; try discriminate.
  - destruct q; reflexivity.
  - destruct q as [|q]; [reflexivity|]. simpl. apply IH. simpl in H. lia.
Qed.

Lemma beside_length {A} (a b : list (list A)) : List.length a = List.length b ->
  List.length (beside a b) = List.length a.
Proof.
  revert b. induction a as [|x a IH]; intros [|y b] H; try discriminate; [reflexivity|].
  simpl. f_equal. apply IH. simpl in H. lia.
Qed.

Lemma table_length {A} (f : solver_stats -> A) d m l : List.length (table f d m l) = List.length m.
Proof. apply map_length. Qed.

Lemma table_row {A} (f : solver_stats -> A) d l : forall m q, (q < List.length m)%nat ->
  List.length (nth q (table f d m l) []) = List.length l.
Proof.
  induction m as [|t m IH]; intros [|q] H; simpl in H; try lia.
  - cbn [table map nth]. apply map_length.
  - cbn [table map nth]. apply IH. lia.
Qed.

(** What the loop returns. *)
Lemma solve_returns markets P one init world : exists r, solve markets P one init world = Some r /\
  let run n := perform_step P n (world n) in
  let first := if init then 0%nat else 1%nat in
  r = match one, init with
      | true, false => make_results markets None 1 (run 1%nat)
      | true, true => make_results markets (Some (make_results markets None 0 (run 0%nat))) 1 (run 1%nat)
      | false, false => make_results markets (Some (make_results markets None 1 (run 1%nat))) 2 (run 2%nat)
      | false, true => make_results markets (Some (make_results markets (Some (make_results markets None 0 (run 0%nat))) 1 (run 1%nat))) 2 (run 2%nat)
      end.
Proof. destruct one, init; eexists; split; reflexivity. Qed.

Section Cumulative.
  Variables (markets : list Z) (P : nat) (one init : bool) (world : nat -> step_world) (r : results).
  Hypothesis solved : solve markets P one init world = Some r.

  Ltac cases := destruct (solve_returns markets P one init world) as [r' [E D]]; rewrite solved in E;
    injection E as <-; cbv zeta in D; destruct one, init; subst r.

  Lemma history_steps : map step (history r) = documented_steps one init.
  Proof. cases; reflexivity. Qed.

  Lemma history_runs : forall s, In s (history r) ->
    let run := perform_step P (step s) (world (step s)) in
    total_time s = run_total_time run /\
    optimization_time s = run_optimization_time run /\
    converged s = ss_converged (run_optimization run) /\
    optimization_iterations s = ss_iterations (run_optimization run) /\
    objective_evaluations s = ss_evaluations (run_optimization run) /\
    fp_converged s = table ss_converged true markets (run_iteration_stats run) /\
    fp_iterations s = table ss_iterations 0%nat markets (run_iteration_stats run) /\
    contraction_evaluations s = table ss_evaluations 0%nat markets (run_iteration_stats run).
  Proof.
    intros s. cases; cbn [history last_results make_results app];
      intro H; repeat (destruct H as [<-|H]; [repeat split|]); destruct H.
  Qed.

  Lemma cumulative_times :
    cumulative_total_time r = total (map total_time (history r)) /\
    cumulative_optimization_time r = total (map optimization_time (history r)).
  Proof.
    cases; cbn [history last_results make_results app map total fold_right cumulative_total_time
      cumulative_optimization_time total_time optimization_time]; split; ring.
  Qed.

  Lemma cumulative_counts :
    cumulative_optimization_iterations r = count (map optimization_iterations (history r)) /\
    cumulative_objective_evaluations r = count (map objective_evaluations (history r)).
  Proof.
    cases; cbn [history last_results make_results app map count fold_right cumulative_optimization_iterations
      cumulative_objective_evaluations optimization_iterations objective_evaluations]; split; lia.
  Qed.

  Lemma cumulative_convergence : cumulative_converged r = forallb converged (history r).
  Proof.
    cases; cbn [history last_results make_results app forallb cumulative_converged converged
      perform_step run_optimization ss_converged]; cbn [Nat.ltb Nat.leb]; rewrite ?andb_false_r;
    cbn [ss_converged default_stats]; rewrite ?andb_true_r, ?andb_true_l, ?andb_assoc; try reflexivity.
  Qed.

  Lemma cumulative_fixed_points q :
    nth q (cumulative_fp_converged r) [] = List.concat (map (fun s => nth q (fp_converged s) []) (history r)) /\
    nth q (cumulative_fp_iterations r) [] = List.concat (map (fun s => nth q (fp_iterations s) []) (history r)) /\
    nth q (cumulative_contraction_evaluations r) []
      = List.concat (map (fun s => nth q (contraction_evaluations s) []) (history r)).
  Proof.
    cases; cbn [history last_results make_results app map List.concat cumulative_fp_converged
      cumulative_fp_iterations cumulative_contraction_evaluations fp_converged fp_iterations
      contraction_evaluations]; repeat split; rewrite ?app_nil_r; try reflexivity;
    rewrite ?beside_nth; rewrite ?beside_length; rewrite ?table_length; rewrite <- ?app_assoc; reflexivity.
  Qed.

  (** One column of fixed point statistics for each objective evaluation. *)
  Lemma cumulative_columns q : (forall n, List.length (optimized_fp (world n)) = ss_evaluations (optimized (world n))) ->
    (q < List.length markets)%nat ->
    List.length (nth q (cumulative_fp_iterations r) []) = cumulative_objective_evaluations r.
  Proof.
    intros H Hq. destruct (cumulative_fixed_points q) as [_ [-> _]]. destruct cumulative_counts as [_ ->].
    assert (R := history_runs). induction (history r) as [|s h IH]; [reflexivity|].
    cbn [map List.concat count fold_right]. rewrite app_length. fold (count (map objective_evaluations h)).
    rewrite IH by (intros s' Hs'; apply R; right; assumption). f_equal.
    destruct (R s (or_introl eq_refl)) as [_ [_ [_ [_ [-> [_ [-> _]]]]]]].
    rewrite table_row by exact Hq. unfold perform_step. cbn [run_iteration_stats run_optimization ss_evaluations].
    rewrite app_length. cbn [List.length]. destruct (Nat.ltb 0 P && Nat.ltb 0 (step s))%bool; [rewrite H|]; simpl; lia.
  Qed.
End Cumulative.

(* ---------- Specification tests ---------- *)

Lemma hansen_scaling scaled N M g W :
  hansen_test scaled N (gmm_objective scaled N M g W)
  = INR N * sumn M (fun i => g i * sumn M (fun j => W i j * g j)).
Proof. unfold hansen_test, gmm_objective. destruct scaled; ring. Qed.

Lemma distance_scaling scaled scaled' N M M' g W g' W' :
  distance_test scaled N (gmm_objective scaled N M g W) scaled' N (gmm_objective scaled' N M' g' W')
  = Some (INR N * sumn M (fun i => g i * sumn M (fun j => W i j * g j))
          - INR N * sumn M' (fun i => g' i * sumn M' (fun j => W' i j * g' j))).
Proof. unfold distance_test, gmm_objective. rewrite Nat.eqb_refl. destruct scaled, scaled'; f_equal; ring. Qed.

(** The Lagrange multiplier statistic does not change when parameters are rescaled by A: Jacobians become
    G A and the covariance matrix B V B' with B the inverse of A. *)
Lemma sumn_swap n m (f : nat -> nat -> R) : sumn n (fun i => sumn m (f i)) = sumn m (fun j => sumn n (fun i => f i j)).
Proof.
  induction n as [|n IH]; simpl; [symmetry; apply sumn_zero|]. rewrite IH, <- sumn_plus. reflexivity.
Qed.

Lemma sumn_delta n k (f : nat -> R) : (k < n)%nat -> sumn n (fun j => (if Nat.eqb j k then 1 else 0) * f j) = f k.
Proof.
  intro H. induction n as [|n IH]; [lia|]. simpl. destruct (Nat.eq_dec n k) as [->|D].
  - rewrite Nat.eqb_refl. rewrite (sumn_ext k _ (fun _ => 0)), sumn_zero; [ring|].
    intros j Hj. assert (E : Nat.eqb j k = false) by (apply Nat.eqb_neq; lia). rewrite E. ring.
  - rewrite IH by lia. assert (E : Nat.eqb n k = false) by (apply Nat.eqb_neq; lia). rewrite E. ring.
Qed.

Lemma bilinear_change P (x : nat -> R) (A B V : nat -> nat -> R) :
  (forall p q, (p < P)%nat -> (q < P)%nat -> sumn P (fun k => A p k * B k q) = if Nat.eqb p q then 1 else 0) ->
  sumn P (fun p => sumn P (fun a => A a p * x a)
     * sumn P (fun q => sumn P (fun b => sumn P (fun c => B p b * V b c * B q c)) * sumn P (fun a => A a q * x a)))
  = sumn P (fun p => x p * sumn P (fun q => V p q * x q)).
Proof.
  intro H.
  (* inner vector: sum_q B q c (A' x) q = x c *)
  assert (I : forall c, (c < P)%nat -> sumn P (fun q => B q c * sumn P (fun a => A a q * x a)) = x c).
  { intros c Hc. rewrite (sumn_ext P _ (fun q => sumn P (fun a => B q c * (A a q * x a))))
      by (intros; symmetry; apply sumn_scal).
    rewrite sumn_swap. rewrite (sumn_ext P _ (fun a => (if Nat.eqb a c then 1 else 0) * x a)).
    - apply sumn_delta. exact Hc.
    - intros a Ha. rewrite <- (H a c Ha Hc). rewrite <- sumn_scal_r. apply sumn_ext. intros; ring. }
  rewrite (sumn_ext P _ (fun p => sumn P (fun a => A a p * x a) * sumn P (fun b => B p b * sumn P (fun c => V b c * x c)))).
  - transitivity (sumn P (fun b => sumn P (fun p => B p b * sumn P (fun a => A a p * x a)) * sumn P (fun c => V b c * x c))).
    + rewrite (sumn_ext P _ (fun p => sumn P (fun b => B p b * sumn P (fun a => A a p * x a) * sumn P (fun c => V b c * x c)))).
      * rewrite sumn_swap. apply sumn_ext. intros b Hb. apply sumn_scal_r.
      * intros p Hp. rewrite <- sumn_scal. apply sumn_ext. intros; ring.
    + apply sumn_ext. intros b Hb. rewrite I by exact Hb. reflexivity.
  - intros p Hp. f_equal.
    transitivity (sumn P (fun b => sumn P (fun c => B p b * V b c * sumn P (fun q => B q c * sumn P (fun a => A a q * x a))))).
    + rewrite (sumn_ext P _ (fun q => sumn P (fun b => sumn P (fun c => B p b * V b c * B q c * sumn P (fun a => A a q * x a))))).
      * rewrite sumn_swap. apply sumn_ext. intros b Hb. rewrite sumn_swap. apply sumn_ext. intros c Hc.
        rewrite <- sumn_scal. apply sumn_ext. intros; ring.
      * intros q Hq. rewrite <- sumn_scal_r. apply sumn_ext. intros b Hb. rewrite <- sumn_scal_r. apply sumn_ext. intros; ring.
    + apply sumn_ext. intros b Hb. rewrite <- sumn_scal. apply sumn_ext. intros c Hc. rewrite I by exact Hc. ring.
Qed.

Lemma lm_reparameterize N M P g W G V (A B : nat -> nat -> R) :
  (forall p q, (p < P)%nat -> (q < P)%nat -> sumn P (fun k => A p k * B k q) = if Nat.eqb p q then 1 else 0) ->
  lm_test N M P g W (fun i p => sumn P (fun a => G i a * A a p))
    (fun p q => sumn P (fun b => sumn P (fun c => B p b * V b c * B q c)))
  = lm_test N M P g W G V.
Proof.
  intro H. unfold lm_test. cbv zeta. f_equal.
  set (x := fun a => sumn M (fun i => G i a * sumn M (fun j => W i j * g j))).
  transitivity (sumn P (fun p => x p * sumn P (fun q => V p q * x q))); [|reflexivity].
  rewrite <- (bilinear_change P x A B V H).
  assert (X : forall p, sumn M (fun i => sumn P (fun a => G i a * A a p) * sumn M (fun j => W i j * g j))
                       = sumn P (fun a => A a p * x a)).
  { intro p. unfold x. rewrite (sumn_ext M _ (fun i => sumn P (fun a => A a p * (G i a * sumn M (fun j => W i j * g j))))).
    - rewrite sumn_swap. apply sumn_ext. intros a Ha. apply sumn_scal.
    - intros i Hi. rewrite <- sumn_scal_r. apply sumn_ext. intros; ring. }
  apply sumn_ext. intros p Hp. rewrite X. f_equal. apply sumn_ext. intros q Hq. rewrite X. reflexivity.
Qed.

(* ---------- Error terms ---------- *)

Lemma expect_scal K p c f : expect K p (fun k => c * f k) = c * expect K p f.
Proof. unfold expect. rewrite <- sumn_scal. apply sumn_ext. intros; ring. Qed.
Lemma expect_plus K p f g : expect K p (fun k => f k + g k) = expect K p f + expect K p g.
Proof. unfold expect. rewrite <- sumn_plus. apply sumn_ext. intros; ring. Qed.
Lemma expect_ext K p f g : (forall k, (k < K)%nat -> f k = g k) -> expect K p f = expect K p g.
Proof. intro H. apply sumn_ext. intros k Hk. rewrite H by exact Hk. reflexivity. Qed.

Lemma normal_xi_variance N xi K p z : standard K p z ->
  expect K p (normal_xi N xi z) = 0 /\
  expect K p (fun k => normal_xi N xi z k * normal_xi N xi z k) = variance N xi * variance N xi.
Proof.
  intros [_ [M V]]. unfold normal_xi, normal. set (v := variance N xi). split.
  - rewrite (expect_ext K p _ (fun k => v * z k)) by (intros; ring). rewrite expect_scal, M. ring.
  - rewrite (expect_ext K p _ (fun k => v * v * (z k * z k))) by (intros; ring). rewrite expect_scal, V. ring.
Qed.

Lemma multivariate_covariance A (S : nat -> nat -> R) K p z1 z2 :
  standard K p z1 -> standard K p z2 -> expect K p (fun k => z1 k * z2 k) = 0 ->
  (forall a b, (a < 2)%nat -> (b < 2)%nat -> A 0%nat a * A 0%nat b + A 1%nat a * A 1%nat b = S a b) ->
  forall a b, (a < 2)%nat -> (b < 2)%nat ->
  expect K p (fun k => multivariate_normal A z1 z2 k a) = 0 /\
  expect K p (fun k => multivariate_normal A z1 z2 k a * multivariate_normal A z1 z2 k b) = S a b.
Proof.
  intros [_ [M1 V1]] [_ [M2 V2]] C HA a b Ha Hb. unfold multivariate_normal. split.
  - rewrite (expect_ext K p _ (fun k => A 0%nat a * z1 k + A 1%nat a * z2 k)) by (intros; ring).
    rewrite expect_plus, !expect_scal, M1, M2. ring.
  - rewrite (expect_ext K p _ (fun k => A 0%nat a * A 0%nat b * (z1 k * z1 k)
      + (A 1%nat a * A 1%nat b * (z2 k * z2 k) + (A 0%nat a * A 1%nat b + A 1%nat a * A 0%nat b) * (z1 k * z2 k)))) by (intros; ring).
    rewrite !expect_plus, !expect_scal, V1, V2, C, <- HA by assumption. ring.
Qed.

(** A row chosen uniformly has the empirical means and (biased) covariances. *)
Lemma empirical_moments N xi omega : (1 < N)%nat ->
  let p := fun _ : nat => / INR N in
  let e := empirical xi omega (fun n => n) in
  expect N p (fun n => e n 0%nat) = mean N xi /\
  expect N p (fun n => (e n 0%nat - mean N xi) * (e n 0%nat - mean N xi)) = variance N xi /\
  expect N p (fun n => (e n 0%nat - mean N xi) * (e n 1%nat - mean N omega)) = covariance N xi omega * (INR N - 1) / INR N.
Proof.
  intros HN p e.
  assert (H1 : INR N <> 0) by (apply not_0_INR; lia).
  assert (H2 : INR N - 1 <> 0) by (assert (1 < INR N) by (apply (lt_INR 1); lia); lra).
  unfold expect, variance, mean, covariance, p, e, empirical. cbn [Nat.eqb].
  split; [rewrite sumn_scal; field; auto|]. split; rewrite sumn_scal; unfold Rdiv; [apply Rmult_comm|rewrite (Rmult_assoc _ (/ (INR N - 1))), Rinv_l, Rmult_1_r by assumption; apply Rmult_comm].
Qed.

Lemma accumulate_sum draws realized k : accumulate draws realized k = sumn k realized / INR draws.
Proof. induction k as [|k IH]; simpl; [unfold Rdiv; ring|]. rewrite IH. unfold Rdiv. ring. Qed.

Lemma optimal_instruments_spec P inverse ex eo i p : (p < P)%nat ->
  fst (optimal_instruments P inverse ex eo) i p = inverse 0%nat 0%nat * ex i p + inverse 0%nat 1%nat * eo i p /\
  snd (optimal_instruments P inverse ex eo) i p = inverse 1%nat 0%nat * ex i p + inverse 1%nat 1%nat * eo i p.
Proof.
  intro Hp. unfold optimal_instruments, reshaped. cbn [fst snd].
  rewrite Nat.div_small, Nat.mod_small by exact Hp.
  replace (P + p)%nat with (p + 1 * P)%nat by lia. rewrite Nat.div_add, Nat.mod_add by lia.
  rewrite Nat.div_small, Nat.mod_small by exact Hp. simpl. split; ring.
Qed.
