(** Theorems about summaries of results. *)
From Coq Require Import Ascii String Reals Lra Lia ZArith List Arith Bool.
From Verif Require Import FltModel TableModel FormatModel DisplayModel SummaryModel SummarySpec SummaryProofs.
Import ListNotations.
Local Open Scope R_scope.

(** Every displayed table has as many cells as labels. *)
Theorem C167_lengths : forall digits seconds markets gradients eigenvalues r P converged iterations evaluations fp contraction draws its evs,
  length (simulation_header gradients eigenvalues) = length (simulation_cells digits seconds markets gradients eigenvalues) /\
  length (summary_header r) = length (summary_cells digits r) /\
  length (cumulative_header P contraction) = length (cumulative_cells seconds P converged iterations evaluations fp contraction) /\
  length (bootstrapped_header its evs) = length (bootstrapped_cells seconds draws its evs).
Proof. exact tables_lengths. Qed.
Print Assumptions C167_lengths.

(** Below each label of simulation results is what it says, and no failures are displayed exactly if all markets converged. *)
Theorem C167_simulation : forall digits seconds markets gradients eigenvalues,
  let show (a b : string) := shown [lit a; lit b] (simulation_header gradients eigenvalues) (simulation_cells digits seconds markets gradients eigenvalues) in
  show "Computation"%string "Time"%string = Some (format_seconds seconds) /\
  (exists failures, show "Fixed Point"%string "Failures"%string = Some (number_of failures) /\ (failures = 0%nat <-> forall s, In s markets -> fst s = true)) /\
  show "Fixed Point"%string "Iterations"%string = Some (number_of (list_sum (map (fun s => fst (snd s)) markets))) /\
  show "Contraction"%string "Evaluations"%string = Some (number_of (list_sum (map (fun s => snd (snd s)) markets))) /\
  (gradients = None <-> show "Profit Gradients"%string "Max Norm"%string = None) /\
  (eigenvalues = None <-> show "Profit Hessians"%string "Min Eigenvalue"%string = None) /\ (eigenvalues = None <-> show "Profit Hessians"%string "Max Eigenvalue"%string = None).
Proof.
  intros digits seconds markets gradients eigenvalues. destruct (simulation_shown digits seconds markets gradients eigenvalues) as (A & B & C & D & E & F & G). cbv zeta in *. repeat match goal with |- _ /\ _ => split end.
  - exact A.
  - eexists. split; [exact B|]. apply failures_zero.
  - exact C.
  - exact D.
  - rewrite E. destruct gradients; cbn; split; intro H; try discriminate H; reflexivity.
  - rewrite F. destruct eigenvalues; cbn; split; intro H; try discriminate H; reflexivity.
  - rewrite G. destruct eigenvalues; cbn; split; intro H; try discriminate H; reflexivity.
Qed.
Print Assumptions C167_simulation.

(** If all elements of all firms' profit gradients are finite, the displayed norm bounds them, tightly. *)
Theorem C167_norm : forall digits seconds markets gradients eigenvalues, all_finite gradients ->
  exists m, shown [lit "Profit Gradients"%string; lit "Max Norm"%string] (simulation_header (Some gradients) eigenvalues) (simulation_cells digits seconds markets (Some gradients) eigenvalues) = Some (format_number digits m) /\
    forall c, at_most m c <-> forall v b, of_firm gradients v -> In (Num b) v -> Rabs b <= c.
Proof.
  intros digits seconds markets gradients eigenvalues F. destruct (simulation_shown digits seconds markets (Some gradients) eigenvalues) as (_ & _ & _ & _ & E & _). cbv zeta in E. eexists. split; [exact E|].
  intro c. rewrite displayed_norm. split; [intros H v b Hv Hb; exact (H v Hv (F v Hv) b Hb)|intros H v Hv _ b Hb; exact (H v b Hv Hb)].
Qed.
Print Assumptions C167_norm.

(** If each firm's eigenvalues could be computed or not, the displayed extremes bound those that could, tightly. *)
Theorem C167_eigenvalues : forall digits seconds markets gradients eigenvalues, all_or_none eigenvalues ->
  let show (a b : string) := shown [lit a; lit b] (simulation_header gradients (Some eigenvalues)) (simulation_cells digits seconds markets gradients (Some eigenvalues)) in
  exists low high, show "Profit Hessians"%string "Min Eigenvalue"%string = Some (format_number digits low) /\ show "Profit Hessians"%string "Max Eigenvalue"%string = Some (format_number digits high) /\
    forall c, (at_least low c <-> forall v b, of_firm eigenvalues v -> In (Num b) v -> c <= b) /\ (at_most high c <-> forall v b, of_firm eigenvalues v -> In (Num b) v -> b <= c).
Proof.
  intros digits seconds markets gradients eigenvalues F. destruct (simulation_shown digits seconds markets gradients (Some eigenvalues)) as (_ & _ & _ & _ & _ & E1 & E2). cbv zeta in *. eexists. eexists. split; [exact E1|]. split; [exact E2|].
  intro c. exact (displayed_eigenvalues eigenvalues c F).
Qed.
Print Assumptions C167_eigenvalues.

(** Firms whose gradients contain anything that is not finite do not count: whatever is displayed for other firms is displayed with
    them as well. *)
Theorem C167_norm_refuted : forall c : R,
  let gradients := [[[Num 0; Num 1]]; [[Num c; NaN]; [Num c; PInf]; [NInf; Num c]]] in
  forall digits seconds markets eigenvalues,
  shown [lit "Profit Gradients"%string; lit "Max Norm"%string] (simulation_header (Some gradients) eigenvalues) (simulation_cells digits seconds markets (Some gradients) eigenvalues) =
  Some (format_number digits (Num 1)).
Proof.
  intros c gradients digits seconds markets eigenvalues. destruct (simulation_shown digits seconds markets (Some gradients) eigenvalues) as (_ & _ & _ & _ & E & _). cbv zeta in E. rewrite E. cbn [option_map]. do 2 f_equal.
  unfold max_norm, gradients, firm_norm. cbn [map absolute array_max fold_left]. rewrite fmax_num, Rabs_R0, Rabs_R1. rewrite Rmax_right by lra. reflexivity.
Qed.
Print Assumptions C167_norm_refuted.

(** Firms for which eigenvalues could not be computed do not count either: second order conditions seem to hold. *)
Theorem C167_eigenvalues_refuted : forall digits seconds markets gradients,
  let eigenvalues := [[[Num (-2); Num (-1)]]; [[NaN; NaN]]] in
  let show (a b : string) := shown [lit a; lit b] (simulation_header gradients (Some eigenvalues)) (simulation_cells digits seconds markets gradients (Some eigenvalues)) in
  show "Profit Hessians"%string "Min Eigenvalue"%string = Some (format_number digits (Num (-2))) /\ show "Profit Hessians"%string "Max Eigenvalue"%string = Some (format_number digits (Num (-1))).
Proof.
  intros digits seconds markets gradients eigenvalues. destruct (simulation_shown digits seconds markets gradients (Some eigenvalues)) as (_ & _ & _ & _ & _ & E1 & E2). cbv zeta in E1, E2.
  assert (X : extreme_eigenvalues eigenvalues = (Num (-2), Num (-1))).
  { unfold extreme_eigenvalues, eigenvalues, extreme_step. cbn [fold_left existsb ffin orb fst snd array_min array_max]. rewrite fmin_num, fmax_num. rewrite Rmin_left, Rmax_right by lra. reflexivity. }
  split; [refine (eq_trans E1 _)|refine (eq_trans E2 _)]; cbn [option_map]; rewrite X; reflexivity.
Qed.
Print Assumptions C167_eigenvalues_refuted.

(** Below each label of problem results is what it says, if it is there.  Numbers of clipped shares and costs are displayed exactly if
    there are bounds, and condition numbers of weighting matrices if they were used. *)
Theorem C167_summary : forall digits r,
  let show (a b : string) := shown [lit a; lit b] (summary_header r) (summary_cells digits r) in
  let when (b : bool) c := if b then Some c else None in
  let bounded := bounds_on_parameters r in
  let hessian := existsb ffin (hessian_eigenvalues r) in
  let several := negb (length (hessian_eigenvalues r) =? 1) in
  show "GMM"%string "Step"%string = Some (number_of (result_step r)) /\
  show "Objective"%string "Value"%string = Some (format_number digits (result_objective r)) /\
  show "Gradient"%string "Norm"%string = when (ffin (projected_norm r) && negb bounded) (format_number digits (projected_norm r)) /\
  show "Projected"%string "Gradient Norm"%string = when (ffin (projected_norm r) && bounded) (format_number digits (projected_norm r)) /\
  show ""%string "Hessian"%string = when (hessian && negb several && negb bounded) (format_number digits (reduced_hessian r)) /\
  show "Reduced"%string "Hessian"%string = when (hessian && negb several && bounded) (format_number digits (reduced_hessian r)) /\
  show " Hessian"%string "Min Eigenvalue"%string = when (hessian && several && negb bounded) (format_number digits (array_min (hessian_eigenvalues r))) /\
  show " Hessian"%string "Max Eigenvalue"%string = when (hessian && several && negb bounded) (format_number digits (array_max (hessian_eigenvalues r))) /\
  show "Reduced Hessian"%string "Min Eigenvalue"%string = when (hessian && several && bounded) (format_number digits (array_min (hessian_eigenvalues r))) /\
  show "Reduced Hessian"%string "Max Eigenvalue"%string = when (hessian && several && bounded) (format_number digits (array_max (hessian_eigenvalues r))) /\
  show "Clipped"%string "Shares"%string = when (finite_shares_bounds r) (number_of (count_occ bool_dec (shares_clipped r) true)) /\
  show "Clipped"%string "Costs"%string = when (finite_costs_bounds r) (number_of (count_occ bool_dec (costs_clipped r) true)) /\
  show "Weighting Matrix"%string "Condition Number"%string = when (0 <? result_step r) (format_number digits (condition_number (weights_cond r) (weights r))) /\
  show "Covariance Matrix"%string "Condition Number"%string = when (existsb ffin (covariances r) && (1 <? length (covariances r))) (format_number digits (condition_number (covariances_cond r) (covariances r))).
Proof. intros digits r. cbv zeta. rewrite negb_involutive. exact (summary_shown digits r). Qed.
Print Assumptions C167_summary.

(** If all eigenvalues of the Hessian are finite, and there is at least one, those displayed bound them, tightly: the smallest is
    positive exactly if the Hessian is positive definite. *)
Theorem C167_hessian : forall eigenvalues, eigenvalues <> [] -> vfin eigenvalues = true ->
  exists low high, array_min eigenvalues = Num low /\ array_max eigenvalues = Num high /\ In (Num low) eigenvalues /\ In (Num high) eigenvalues /\
    forall b, In (Num b) eigenvalues -> low <= b <= high.
Proof.
  intros v N F. assert (E : existsb ffin v = true) by (destruct v as [|x v]; [contradiction|]; cbn in *; apply andb_true_iff in F; rewrite (proj1 F); reflexivity).
  destruct (array_extremes v E F) as (r & s & A & B & Hr & Hs). exists r, s. split; [exact A|]. split; [exact B|].
  assert (M : forall f : flt -> flt -> flt, (forall x y, f x y = x \/ f x y = y) -> forall l a, fold_left f l a = a \/ In (fold_left f l a) l).
  { intros f Hf l. induction l as [|y l IH]; intro a; cbn [fold_left]; [left; reflexivity|]. destruct (IH (f a y)) as [H|H]; [|right; right; exact H]. rewrite H. destruct (Hf a y) as [H2|H2]; rewrite H2; [left; reflexivity|right; left; reflexivity]. }
  split; [|split].
  - destruct v as [|x v]; [contradiction|]. cbn [array_min] in A. rewrite <- A. destruct (M fmin) with (l := v) (a := x) as [H|H].
    + intros p q. unfold fmin. destruct p, q; cbn [fnan orb fltb]; auto; destruct (rltb _ _); auto.
    + rewrite H. left. reflexivity.
    + right. exact H.
  - destruct v as [|x v]; [contradiction|]. cbn [array_max] in B. rewrite <- B. destruct (M fmax) with (l := v) (a := x) as [H|H].
    + intros p q. unfold fmax. destruct p, q; cbn [fnan orb fltb]; auto; destruct (rltb _ _); auto.
    + rewrite H. left. reflexivity.
    + right. exact H.
  - intros b Hb. split; [exact (proj1 (Hr r) (Rle_refl r) b Hb)|exact (proj1 (Hs s) (Rle_refl s) b Hb)].
Qed.
Print Assumptions C167_hessian.

(** Condition numbers are those of matrices whose elements are all finite; a single other element makes them NaN, without a failure. *)
Theorem C167_condition : forall cond x,
  (forall y, In y x -> ffin y = false -> condition_number cond x = NaN) /\
  (x <> [] -> (forall y, In y x -> ffin y = true) -> forall c, cond = Some c -> condition_number cond x = c) /\
  (x <> [] -> cond = None -> condition_number cond x = NaN) /\ condition_number cond [] = Num 0.
Proof.
  intros cond x. split; [|split; [|split]].
  - intros y Hy Fy. destruct x as [|a x]; [destruct Hy|]. unfold condition_number. destruct (vfin (a :: x)) eqn:F; [|reflexivity].
    unfold vfin in F. rewrite forallb_forall in F. rewrite (F y Hy) in Fy. discriminate Fy.
  - intros N F c ->. destruct x as [|a x]; [contradiction|]. unfold condition_number. rewrite (proj2 (forallb_forall ffin (a :: x)) F : vfin (a :: x) = true). reflexivity.
  - intros N ->. destruct x as [|a x]; [contradiction|]. unfold condition_number. destruct (vfin (a :: x)); reflexivity.
  - reflexivity.
Qed.
Print Assumptions C167_condition.

(** Cumulative statistics: whether the optimizer converged is displayed exactly if there was something to optimize. *)
Theorem C167_cumulative : forall seconds P converged iterations evaluations fp contraction,
  let show (a b : string) := shown [lit a; lit b] (cumulative_header P contraction) (cumulative_cells seconds P converged iterations evaluations fp contraction) in
  show "Computation"%string "Time"%string = Some (format_seconds seconds) /\
  show "Optimizer"%string "Converged"%string = (if 0 <? P then Some (lit (if converged then "Yes"%string else "No"%string)) else None) /\
  show "Optimization"%string "Iterations"%string = (if 0 <? P then Some (number_of iterations) else None) /\
  show "Objective"%string "Evaluations"%string = Some (number_of evaluations) /\
  (list_sum contraction <> 0%nat -> show "Fixed Point"%string "Iterations"%string = Some (number_of (list_sum fp)) /\ show "Contraction"%string "Evaluations"%string = Some (number_of (list_sum contraction))) /\
  (list_sum contraction = 0%nat -> show "Fixed Point"%string "Iterations"%string = None /\ show "Contraction"%string "Evaluations"%string = None).
Proof. exact cumulative_shown. Qed.
Print Assumptions C167_cumulative.

(** Arrays of statistics of bootstrapped results have a row for each market and a column for each draw, and totals over all draws and
    markets are displayed. *)
Theorem C167_bootstrap : forall (M : Type) (iteration_stats : nat -> M -> bool * (nat * nat)) draws (markets : list M) seconds,
  (forall t m d, nth_error markets t = Some m -> (d < draws)%nat -> forall T (f : bool * (nat * nat) -> T),
    exists row, nth_error (bootstrapped_array f iteration_stats draws markets) t = Some row /\ length row = draws /\ nth_error row d = Some (f (iteration_stats d m))) /\
  let all f := list_sum (map (fun d => list_sum (map (fun t => f (iteration_stats d t)) markets)) (seq 0 draws)) in
  let its := bootstrapped_array stat_iterations iteration_stats draws markets in
  let evs := bootstrapped_array stat_evaluations iteration_stats draws markets in
  let show (a b : string) := shown [lit a; lit b] (bootstrapped_header its evs) (bootstrapped_cells seconds draws its evs) in
  show "Bootstrap"%string "Draws"%string = Some (number_of draws) /\
  (all (fun s => fst (snd s)) <> 0%nat \/ all (fun s => snd (snd s)) <> 0%nat ->
    show "Fixed Point"%string "Iterations"%string = Some (number_of (all (fun s => fst (snd s)))) /\ show "Contraction"%string "Evaluations"%string = Some (number_of (all (fun s => snd (snd s))))).
Proof.
  intros M iteration_stats draws markets seconds. split.
  - intros t m d Ht Hd T f. exact (array_entries f iteration_stats draws markets t d m Ht Hd).
  - cbv zeta. destruct (bootstrapped_shown seconds draws (bootstrapped_array stat_iterations iteration_stats draws markets) (bootstrapped_array stat_evaluations iteration_stats draws markets)) as (_ & B & C & _).
    cbv zeta in *. split; [exact B|]. rewrite !array_sum in C. exact C.
Qed.
Print Assumptions C167_bootstrap.

Example C167_applies :
  all_finite [[[Num 0; Num (-3)]; [Num 1]]; [[Num 2]]] /\ all_or_none [[[Num (-2); Num (-1)]]; [[NaN; NaN]]] /\
  at_most (max_norm (map (map firm_norm) [[[Num 0; Num (-3)]; [Num 1]]; [[Num 2]]])) 3.
Proof.
  assert (H : all_finite [[[Num 0; Num (-3)]; [Num 1]]; [[Num 2]]]).
  { intros v (market & Hm & Hv). cbn in Hm. destruct Hm as [ <- |[ <- |[]]]; cbn in Hv; [destruct Hv as [ <- |[ <- |[]]]|destruct Hv as [ <- |[]]]; reflexivity. }
  split; [exact H|]. split.
  - intros v (market & Hm & Hv). cbn in Hm. destruct Hm as [ <- |[ <- |[]]]; cbn in Hv; destruct Hv as [ <- |[]]; [left|right]; reflexivity.
  - apply displayed_norm. intros v (market & Hm & Hv) _ b Hb. cbn in Hm.
    destruct Hm as [ <- |[ <- |[]]]; cbn in Hv; [destruct Hv as [ <- |[ <- |[]]]|destruct Hv as [ <- |[]]]; cbn in Hb; repeat (destruct Hb as [Eb|Hb]; [injection Eb as <-; unfold Rabs; destruct (Rcase_abs _); lra|]); destruct Hb.
Qed.
