(** C171: diagnostics of importance sampling. *)
From Coq Require Import Reals Lra Lia ZArith List Arith.
From Verif Require Import Base SchedModel DiagModel DiagSpec DiagProofs.
Import ListNotations.
Local Open Scope R_scope.

(** However positive weights differ, the number of effective draws for the variance is the smallest of the three numbers, then that for gauging skewness, then that for the mean. *)
Theorem C171_order w : w <> [] -> (forall x, In x w -> 0 < x) ->
  1 <= effective_draws_for_variance w /\ effective_draws_for_variance w <= effective_draws_for_skewness w /\
  effective_draws_for_skewness w <= effective_draws w /\ effective_draws w <= INR (List.length w).
Proof. exact (chain w). Qed.
Print Assumptions C171_order.

(** Any of the numbers is the number of draws exactly when all weights are equal. *)
Theorem C171_equal w : w <> [] -> (forall x, In x w -> 0 < x) ->
  (effective_draws w = INR (List.length w) <-> all_same w) /\
  (effective_draws_for_variance w = INR (List.length w) <-> all_same w) /\
  (effective_draws_for_skewness w = INR (List.length w) <-> all_same w).
Proof.
  intros N P. destruct (chain w N P) as (_ & A & B & C). assert (F := plain_equal w N P). assert (G := same_variance w N P).
  split; [|split]; (split; [intro E; apply F; lra|intro S; specialize (G S); lra]).
Qed.
Print Assumptions C171_equal.

(** None depends on the scale of weights, which their sum shows instead. *)
Theorem C171_scale w c : w <> [] -> (forall x, In x w -> 0 < x) -> 0 < c ->
  effective_draws (map (Rmult c) w) = effective_draws w /\
  effective_draws_for_variance (map (Rmult c) w) = effective_draws_for_variance w /\
  effective_draws_for_skewness (map (Rmult c) w) = effective_draws_for_skewness w /\
  weight_sum (map (Rmult c) w) = c * weight_sum w.
Proof.
  intros N P C. assert (p2 := power_positive w 2 N P). assert (p3 := power_positive w 3 N P). assert (p4 := power_positive w 4 N P).
  unfold effective_draws, effective_draws_for_variance, effective_draws_for_skewness, weight_sum. rewrite !power_scale.
  split; [field; lra|]. split; [field; lra|]. split; [field; lra|ring].
Qed.
Print Assumptions C171_scale.

(** What an effective number of draws means: a weighted mean of variables that are not correlated has as large a variance as the plain mean of that many of them. *)
Theorem C171_variance n states q y mu v w :
  uncorrelated n states q y mu v -> (0 < n)%nat -> (forall i, (i < n)%nat -> 0 < w i) ->
  expected states q (fun s => (sumn n (fun i => w i * y i s) / sumn n w - mu) ^ 2) = v / effective_draws (map w (seq 0 n)).
Proof.
  intros U N P. assert (L : map w (seq 0 n) <> []) by (destruct n; [lia|discriminate]).
  assert (P' : forall x, In x (map w (seq 0 n)) -> 0 < x) by (intros x I; apply in_map_iff in I; destruct I as (i & <- & Hi); apply P; apply in_seq in Hi; lia).
  assert (A := power_positive _ 1 L P'). assert (B := power_positive _ 2 L P'). rewrite power_sumn in A, B. rewrite (sumn_ext n (fun i => w i ^ 1) w) in A by (intros; ring).
  apply variance_of_mean; [exact U|lra|lra].
Qed.
Print Assumptions C171_variance.

(** The same for estimates of variances, in which weights are squared. *)
Theorem C171_squared n states q z mu v w :
  uncorrelated n states q z mu v -> (0 < n)%nat -> (forall i, (i < n)%nat -> 0 < w i) ->
  expected states q (fun s => (sumn n (fun i => w i ^ 2 * z i s) / sumn n (fun i => w i ^ 2) - mu) ^ 2) = v / effective_draws_for_variance (map w (seq 0 n)).
Proof.
  intros U N P. rewrite (C171_variance n states q z mu v (fun i => w i ^ 2) U N) by (intros i Hi; apply pow_lt, P, Hi).
  f_equal. unfold effective_draws, effective_draws_for_variance, weight_sum. rewrite <- (map_map w (fun x => x ^ 2)). rewrite !power_squares. reflexivity.
Qed.
Print Assumptions C171_squared.

(** A weighted mean is as skewed as the plain mean of as many variables: its squared skewness is that of one variable over their number. *)
Theorem C171_skewness n states q y mu v t w :
  uncorrelated n states q y mu v -> third_moments n states q y mu t -> v <> 0 -> (0 < n)%nat -> (forall i, (i < n)%nat -> 0 < w i) ->
  let m := fun s => sumn n (fun i => w i * y i s) / sumn n w in
  expected states q (fun s => (m s - mu) ^ 3) ^ 2 / expected states q (fun s => (m s - mu) ^ 2) ^ 3 = (t ^ 2 / v ^ 3) / effective_draws_for_skewness (map w (seq 0 n)).
Proof.
  intros U T V N P m. assert (L : map w (seq 0 n) <> []) by (destruct n; [lia|discriminate]).
  assert (P' : forall x, In x (map w (seq 0 n)) -> 0 < x) by (intros x I; apply in_map_iff in I; destruct I as (i & <- & Hi); apply P; apply in_seq in Hi; lia).
  assert (A := power_positive _ 1 L P'). assert (B := power_positive _ 2 L P'). assert (C := power_positive _ 3 L P').
  assert (E : power_sum 1 (map w (seq 0 n)) = sumn n w) by (rewrite power_sumn; apply sumn_ext; intros; ring).
  unfold m. rewrite (third_of_mean n states q y mu t w T) by lra. rewrite (C171_variance n states q y mu v w U N P).
  unfold effective_draws_for_skewness, effective_draws, weight_sum. rewrite <- (power_sumn n w 3), <- E. field. repeat split; lra.
Qed.
Print Assumptions C171_skewness.

(** Displayed numbers: how many agents were sampled, a lower bound that every market meets for each number of effective draws, in the order above, and the range of weight sums. *)
Theorem C171_displayed draws markets : (0 < draws)%nat -> markets <> [] -> (forall w, In w markets -> List.length w = draws /\ forall x, In x w -> 0 < x) ->
  let d := displayed_diagnostics draws markets in
  total_draws d = (draws * List.length markets)%nat /\ draws_per_market d = draws /\
  (1 <= min_for_variance d <= min_for_skewness d)%Z /\ (min_for_skewness d <= min_effective d <= Z.of_nat draws)%Z /\
  (exists w, In w markets /\ IZR (min_effective d) <= effective_draws w < IZR (min_effective d) + 1) /\
  (exists w, In w markets /\ IZR (min_for_variance d) <= effective_draws_for_variance w < IZR (min_for_variance d) + 1) /\
  (exists w, In w markets /\ IZR (min_for_skewness d) <= effective_draws_for_skewness w < IZR (min_for_skewness d) + 1) /\
  (forall w, In w markets -> IZR (min_effective d) <= effective_draws w /\ IZR (min_for_variance d) <= effective_draws_for_variance w /\ IZR (min_for_skewness d) <= effective_draws_for_skewness w /\
    min_weight_sum d <= weight_sum w <= max_weight_sum d) /\
  (exists w, In w markets /\ min_weight_sum d = weight_sum w) /\ (exists w, In w markets /\ max_weight_sum d = weight_sum w).
Proof. exact (displayed draws markets). Qed.
Print Assumptions C171_displayed.

(** Two markets with two draws each, and two independent flips of a coin that is not fair. *)
Example C171_applies :
  (let markets := [[1 / 4; 1 / 2]; [1; 1]] in markets <> [] /\ forall w, In w markets -> List.length w = 2%nat /\ forall x, In x w -> 0 < x) /\
  effective_draws [1 / 4; 1 / 2] = 9 / 5 /\ effective_draws_for_variance [1 / 4; 1 / 2] = 25 / 17 /\ effective_draws_for_skewness [1 / 4; 1 / 2] = 125 / 81 /\
  uncorrelated 2 4 (fun s => match s with 0%nat => 9 / 16 | 3%nat => 1 / 16 | _ => 3 / 16 end) (fun i s => match i, s with 0%nat, 1%nat | 0%nat, 3%nat | 1%nat, 2%nat | 1%nat, 3%nat => 1 | _, _ => 0 end) (1 / 4) (3 / 16) /\
  third_moments 2 4 (fun s => match s with 0%nat => 9 / 16 | 3%nat => 1 / 16 | _ => 3 / 16 end) (fun i s => match i, s with 0%nat, 1%nat | 0%nat, 3%nat | 1%nat, 2%nat | 1%nat, 3%nat => 1 | _, _ => 0 end) (1 / 4) (3 / 32).
Proof.
  split; [split; [discriminate|]|].
  - intros w [<-|[<-|[]]]; (split; [reflexivity|]); intros x Hx; cbn in Hx; destruct Hx as [<-|[<-|[]]]; lra.
  - unfold effective_draws, effective_draws_for_variance, effective_draws_for_skewness, weight_sum, power_sum. cbn [fold_right]. split; [field|]. split; [field|]. split; [field|]. split; [split|].
    + intros i Hi. destruct i as [|[|i]]; [| |lia]; unfold expected; cbn [sumn]; lra.
    + intros i j Hi Hj. destruct i as [|[|i]]; [| |lia]; (destruct j as [|[|j]]; [| |lia]); unfold expected; cbn [sumn Nat.eqb]; lra.
    + intros i j k Hi Hj Hk. destruct i as [|[|i]]; [| |lia]; (destruct j as [|[|j]]; [| |lia]); (destruct k as [|[|k]]; [| |lia]); unfold expected; cbn [sumn Nat.eqb andb]; lra.
Qed.
