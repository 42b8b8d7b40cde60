(** Theorems about estimation results.  Each is closed by a lemma proved elsewhere. *)
From Coq Require Import Reals Lra Lia List Bool Arith ZArith.
From Verif Require Import Base ResultsModel ResultsSpec ResultsProofs.
Import ListNotations.
Local Open Scope R_scope.

(* ---------- C49: normal draws of error terms ---------- *)

(** Without a supply side, draws have mean zero but the square of the estimated variance as their variance:
    the variance is passed where NumPy expects a standard deviation. *)
Theorem C49_normal_demand_draws N xi K p z : standard K p z ->
  expect K p (normal_xi N xi z) = 0 /\
  expect K p (fun k => normal_xi N xi z k * normal_xi N xi z k) = variance N xi * variance N xi.
Proof. exact (normal_xi_variance N xi K p z). Qed.
Print Assumptions C49_normal_demand_draws.

(** So they have the estimated variance only if it is zero or one. *)
Theorem C49_normal_demand_draws_iff N xi K p z : standard K p z ->
  (expect K p (fun k => normal_xi N xi z k * normal_xi N xi z k) = variance N xi
   <-> variance N xi = 0 \/ variance N xi = 1).
Proof.
  intro H. destruct (normal_xi_variance N xi K p z H) as [_ ->]. set (v := variance N xi). split.
  - intro E. assert (F : v * (v - 1) = 0) by lra. apply Rmult_integral in F. destruct F; [left|right]; lra.
  - intros [-> | ->]; ring.
Qed.
Print Assumptions C49_normal_demand_draws_iff.

Theorem C49_normal_demand_draws_refuted :
  exists N xi K p z, standard K p z /\
    expect K p (fun k => normal_xi N xi z k * normal_xi N xi z k) <> variance N xi.
Proof.
  exists 2%nat, (fun i => if Nat.eqb i 0 then 2 else -2), 2%nat, (fun _ => 1 / 2), (fun i => if Nat.eqb i 0 then 1 else -1).
  unfold standard, expect, normal_xi, normal, variance, mean. simpl. split; [repeat split; lra|].
  intro H. field_simplify in H. lra.
Qed.
Print Assumptions C49_normal_demand_draws_refuted.

(** With a supply side, draws have the estimated covariance matrix. *)
Theorem C49_normal_joint_draws N xi omega A K p z1 z2 :
  standard K p z1 -> standard K p z2 -> expect K p (fun k => z1 k * z2 k) = 0 ->
  let errors := fun a => if Nat.eqb a 0 then xi else omega in
  (forall a b, (a < 2)%nat -> (b < 2)%nat ->
     A 0%nat a * A 0%nat b + A 1%nat a * A 1%nat b = covariance N (errors a) (errors b)) ->
  forall a b, (a < 2)%nat -> (b < 2)%nat ->
  expect K p (fun k => multivariate_normal A z1 z2 k a) = 0 /\
  expect K p (fun k => multivariate_normal A z1 z2 k a * multivariate_normal A z1 z2 k b)
  = covariance N (errors a) (errors b).
Proof.
  intros H1 H2 C errors. exact (multivariate_covariance A (fun a b => covariance N (errors a) (errors b)) K p z1 z2 H1 H2 C).
Qed.
Print Assumptions C49_normal_joint_draws.

(** Empirical draws have the empirical mean, variance and covariance. *)
Theorem C49_empirical_draws N xi omega : (1 < N)%nat ->
  let p := fun _ : nat => / INR N in
  let e := empirical xi omega (fun n => n) in
  expect N p (fun n => e n 0%nat) = mean N xi /\
  expect N p (fun n => (e n 0%nat - mean N xi) * (e n 0%nat - mean N xi)) = variance N xi /\
  expect N p (fun n => (e n 0%nat - mean N xi) * (e n 1%nat - mean N omega))
  = covariance N xi omega * (INR N - 1) / INR N.
Proof. exact (empirical_moments N xi omega). Qed.
Print Assumptions C49_empirical_draws.

(** Whatever rows are chosen, both errors of a draw come from one and the same row, so that dependence between
    them is kept. *)
Theorem C49_empirical_joint N xi omega chosen i : (forall i, chosen i < N)%nat ->
  exists row, (row < N)%nat /\ row = chosen i /\
    empirical xi omega chosen i 0%nat = xi row /\ empirical xi omega chosen i 1%nat = omega row.
Proof. intro H. exists (chosen i). repeat split. exact (H i). Qed.
Print Assumptions C49_empirical_joint.

Example C49_applies :
  let p := fun _ : nat => 1 / 4 in
  let z1 := fun k => if Nat.ltb k 2 then 1 else -1 in
  let z2 := fun k => if Nat.even k then 1 else -1 in
  standard 4 p z1 /\ standard 4 p z2 /\ expect 4 p (fun k => z1 k * z2 k) = 0.
Proof. unfold standard, expect. simpl. repeat split; lra. Qed.

(* ---------- C50: cumulative statistics ---------- *)

Section Cumulative.
  Variables (markets : list Z) (P : nat) (one_step initial_update : bool) (world : nat -> step_world).

  (** The loop ends and performs the documented steps; each step's own statistics are those of the step. *)
  Theorem C50_steps : exists r, solve markets P one_step initial_update world = Some r /\
    map step (history r) = documented_steps one_step initial_update /\
    forall s, In s (history r) ->
      let optimize := andb (Nat.ltb 0 P) (Nat.ltb 0 (step s)) in
      let w := world (step s) in
      total_time s = clock_total w /\
      converged s = (if optimize then ss_converged (optimized w) else true) /\
      optimization_iterations s = (if optimize then ss_iterations (optimized w) else 0%nat) /\
      objective_evaluations s = S (if optimize then ss_evaluations (optimized w) else 0%nat).
  Proof.
    destruct (solve_returns markets P one_step initial_update world) as [r [E _]]. exists r. split; [exact E|].
    split; [exact (history_steps _ _ _ _ _ _ E)|]. intros s Hs.
    destruct (history_runs _ _ _ _ _ _ E s Hs) as [-> [_ [-> [-> [-> _]]]]]. unfold perform_step.
    cbn [run_total_time run_optimization ss_converged ss_iterations ss_evaluations].
    destruct (andb (Nat.ltb 0 P) (Nat.ltb 0 (step s))); repeat split.
  Qed.

  Theorem C50_cumulative_sums r : solve markets P one_step initial_update world = Some r ->
    cumulative_total_time r = total (map total_time (history r)) /\
    cumulative_optimization_time r = total (map optimization_time (history r)) /\
    cumulative_optimization_iterations r = count (map optimization_iterations (history r)) /\
    cumulative_objective_evaluations r = count (map objective_evaluations (history r)).
  Proof.
    intro E. destruct (cumulative_times _ _ _ _ _ _ E) as [A B], (cumulative_counts _ _ _ _ _ _ E) as [C D]. auto.
  Qed.

  Theorem C50_cumulative_converged r : solve markets P one_step initial_update world = Some r ->
    (cumulative_converged r = true <-> forall s, In s (history r) -> converged s = true).
  Proof. intro E. rewrite (cumulative_convergence _ _ _ _ _ _ E). apply forallb_forall. Qed.

  Theorem C50_cumulative_fixed_points r q : solve markets P one_step initial_update world = Some r ->
    nth q (cumulative_fp_converged r) [] = List.concat (map (fun s => nth q (fp_converged s) []) (history r)) /\
    nth q (cumulative_fp_iterations r) [] = List.concat (map (fun s => nth q (fp_iterations s) []) (history r)) /\
    nth q (cumulative_contraction_evaluations r) []
      = List.concat (map (fun s => nth q (contraction_evaluations s) []) (history r)).
  Proof. intro E. exact (cumulative_fixed_points _ _ _ _ _ _ E q). Qed.

  (** If the optimiser counts its objective evaluations, each has its column of fixed point statistics. *)
  Theorem C50_columns r q : solve markets P one_step initial_update world = Some r ->
    (forall n, List.length (optimized_fp (world n)) = ss_evaluations (optimized (world n))) ->
    (q < List.length markets)%nat ->
    List.length (nth q (cumulative_fp_iterations r) []) = cumulative_objective_evaluations r.
  Proof. intro E. exact (cumulative_columns _ _ _ _ _ _ E q). Qed.
End Cumulative.
Print Assumptions C50_steps.
Print Assumptions C50_cumulative_sums.
Print Assumptions C50_cumulative_converged.
Print Assumptions C50_cumulative_fixed_points.
Print Assumptions C50_columns.

Example C50_applies :
  let fp := Some (fun _ : Z => {| ss_converged := true; ss_iterations := 7; ss_evaluations := 9 |}) in
  let world := fun n => {| clock_total := 2; clock_optimization := 1;
    optimized := {| ss_converged := Nat.eqb n 2; ss_iterations := 3; ss_evaluations := 1 |};
    optimized_fp := [fp]; final_fp := None |} in
  exists r, solve [4; 5]%Z 1 false true world = Some r /\
    (forall n, List.length (optimized_fp (world n)) = ss_evaluations (optimized (world n))) /\
    cumulative_objective_evaluations r = 5%nat /\ cumulative_converged r = false /\
    cumulative_fp_iterations r = [[0; 7; 0; 7; 0]; [0; 7; 0; 7; 0]]%nat.
Proof. eexists. split; [reflexivity|]. repeat split. Qed.

(* ---------- C54: specification tests (the Wald statistic is in StatsProps) ---------- *)

Theorem C54_hansen scaled N M g W :
  hansen_test scaled N (gmm_objective scaled N M g W)
  = INR N * sumn M (fun i => g i * sumn M (fun j => W i j * g j)).
Proof. exact (hansen_scaling scaled N M g W). Qed.
Print Assumptions C54_hansen.

Theorem C54_distance scaled scaled' N M M' g W g' W' :
  distance_test scaled N (gmm_objective scaled N M g W) scaled' N (gmm_objective scaled' N M' g' W')
  = Some (INR N * sumn M (fun i => g i * sumn M (fun j => W i j * g j))
          - INR N * sumn M' (fun i => g' i * sumn M' (fun j => W' i j * g' j))).
Proof. exact (distance_scaling scaled scaled' N M M' g W g' W'). Qed.
Print Assumptions C54_distance.

(** The Lagrange multiplier statistic is invariant to an invertible linear change of parameters. *)
Theorem C54_lagrange_multiplier N M P g W G V (A B : nat -> nat -> R) :
  (forall p q, (p < P)%nat -> (q < P)%nat -> sumn P (fun k => A p k * B k q) = if Nat.eqb p q then 1 else 0) ->
  lm_test N M P g W (fun i p => sumn P (fun a => G i a * A a p))
    (fun p q => sumn P (fun b => sumn P (fun c => B p b * V b c * B q c)))
  = lm_test N M P g W G V.
Proof. exact (lm_reparameterize N M P g W G V A B). Qed.
Print Assumptions C54_lagrange_multiplier.

Example C54_lm_applies :
  let A := fun p q => if Nat.leb p q then 1 else 0 in
  let B := fun p q => if Nat.eqb p q then 1 else if Nat.eqb (S p) q then -1 else 0 in
  forall p q, (p < 2)%nat -> (q < 2)%nat -> sumn 2 (fun k => A p k * B k q) = if Nat.eqb p q then 1 else 0.
Proof.
  intros A B p q Hp Hq. unfold A, B. destruct p as [|[|p]], q as [|[|q]]; try lia; simpl; ring.
Qed.
Example C54_hansen_nontrivial : hansen_test false 3 (gmm_objective false 3 1 (fun _ => 2) (fun _ _ => 1)) = 12.
Proof. unfold hansen_test, gmm_objective. simpl. ring. Qed.

(* ---------- C68: optimal instruments ---------- *)

(** Demand instruments are the first row, and supply instruments the second row, of the inverse covariance
    matrix times stacked expected Jacobians. *)
Theorem C68_joint_instruments P inverse ex eo i p : (p < P)%nat ->
  fst (optimal_instruments P inverse ex eo) i p = inverse 0%nat 0%nat * ex i p + inverse 0%nat 1%nat * eo i p /\
  snd (optimal_instruments P inverse ex eo) i p = inverse 1%nat 0%nat * ex i p + inverse 1%nat 1%nat * eo i p.
Proof. exact (optimal_instruments_spec P inverse ex eo i p). Qed.
Print Assumptions C68_joint_instruments.

(** Accumulated expectations are averages over all draws. *)
Theorem C68_expectations draws realized : (0 < draws)%nat ->
  accumulate draws realized draws = mean draws realized.
Proof. intros _. exact (accumulate_sum draws realized draws). Qed.
Print Assumptions C68_expectations.

(** Without a supply side, instruments are expected Jacobians divided by the variance of the error. *)
Theorem C68_demand_instruments N xi ex i p : variance N xi <> 0 ->
  optimal_demand_instruments N xi ex i p * variance N xi = ex i p.
Proof. intro H. unfold optimal_demand_instruments. field. exact H. Qed.
Print Assumptions C68_demand_instruments.

Example C68_demand_applies :
  optimal_demand_instruments 2 (fun i => if Nat.eqb i 0 then 2 else -2) (fun _ _ => 12) 0%nat 0%nat = 3.
Proof. unfold optimal_demand_instruments, variance, mean. simpl. field. Qed.

Example C68_applies :
  snd (optimal_instruments 2 (fun a b => INR (1 + a + b)) (fun _ p => INR p) (fun _ _ => 10)) 0%nat 1%nat = 32.
Proof. destruct (C68_joint_instruments 2 (fun a b => INR (1 + a + b)) (fun _ p => INR p) (fun _ _ => 10) 0%nat 1%nat) as [_ ->]; [lia|]. simpl. ring. Qed.
