(** Property theorems about averages over surveys: C145. *)
From Coq Require Import Reals List Bool Arith Lia Lra.
From Verif Require Import Base DemandSpec FltModel MicroModel MicroSpec MicroProofs AverageModel AverageSpec AverageProofs.
Import ListNotations.
Local Open Scope R_scope.

(** C145: survey weights are accepted exactly if they have one of the documented shapes and none is negative, and values exactly if
    they have the shape of weights. *)
Theorem C145_weights_accepted :
  forall I J user a, compute_micro_weights I J user = Accepted a <->
  user = Some a /\ documented_shape I J (rt_shape a) /\ (forall x, In x (rt_elements a) -> ~ below_zero x).
Proof. exact weights_accepted. Qed.
Print Assumptions C145_weights_accepted.

Theorem C145_values_accepted :
  forall w user a, compute_micro_values w user = Accepted a <-> user = Some a /\ rt_shape a = rt_shape w.
Proof. exact values_accepted. Qed.
Print Assumptions C145_values_accepted.

(** C145: shapes of accepted weights say, without ambiguity, which options they are about. *)
Theorem C145_shapes :
  forall I J s, documented_shape I J s -> exists sh, read_shape J s = Some sh /\
  match sh with
  | Two o => s = [I; List.length (options_of o J)]
  | Three o1 o2 => s = [I; List.length (options_of o1 J); List.length (options_of o2 J)]
  end.
Proof. exact shapes_read. Qed.
Print Assumptions C145_shapes.

(** C145: weights that are not numbers, and infinite ones, are accepted. *)
Theorem C145_numbers_refuted :
  ~ (forall I J user a x, compute_micro_weights I J user = Accepted a -> In x (rt_elements a) -> exists r, x = Num r /\ 0 <= r).
Proof.
  intros H. destruct (H 1%nat 1%nat (Some (mk_returned [1; 1]%nat [NaN])) (mk_returned [1; 1]%nat [NaN]) NaN) as [r [E _]]; [|left; reflexivity|discriminate].
  apply weights_accepted. split; [reflexivity|]. split.
  - exists 1%nat. split; [left; reflexivity|left; reflexivity].
  - intros x [<-|[]] [E|[r [E _]]]; discriminate.
Qed.
Print Assumptions C145_numbers_refuted.

(** C145: only ratios of survey weights matter, and only ratios of integration weights. *)
Theorem C145_units :
  forall c d chunks ms part q n, 0 < c -> 0 < d ->
  part_value chunks (each (other_units c d) ms) part = part_value chunks ms part /\
  part_jacobian chunks (each (other_units c d) ms) part = part_jacobian chunks ms part /\
  part_covariance chunks (each (other_units c d) ms) n part q = part_covariance chunks ms n part q.
Proof.
  intros c d chunks ms part q n Hc Hd. split; [apply units_value; assumption|]. split; [apply units_jacobian; assumption|apply units_covariance; assumption].
Qed.
Print Assumptions C145_units.

(** C145: parts are averages: they follow linear transformations of values, and so do their covariances. *)
Theorem C145_linear :
  forall a b chunks ms part q n, denominator chunks ms <> 0 ->
  part_value chunks (each (other_values a b) ms) part = a part * part_value chunks ms part + b part /\
  part_covariance chunks (each (other_values a b) ms) n part q = a part * a q * part_covariance chunks ms n part q.
Proof. intros a b chunks ms part q n N. split; [apply values_affine; exact N|apply values_covariance; exact N]. Qed.
Print Assumptions C145_linear.

(** C145: they are between the smallest and the largest value of surveyed options, and a constant is its own average, without
    variance, and uncorrelated with everything. *)
Theorem C145_range :
  forall chunks ms part lo hi, 0 < denominator chunks ms ->
  (forall m i x, In m ms -> (i < m_I (snd m))%nat -> In x (cells (fst m) (m_J (snd m))) -> m_weight (snd m) i x <> 0 ->
     lo <= m_value (snd m) part i x <= hi) ->
  lo <= part_value chunks ms part <= hi.
Proof. exact average_range. Qed.
Print Assumptions C145_range.

Theorem C145_constant :
  forall chunks ms part k, 0 < denominator chunks ms ->
  (forall m i x, In m ms -> (i < m_I (snd m))%nat -> In x (cells (fst m) (m_J (snd m))) -> m_weight (snd m) i x <> 0 ->
     m_value (snd m) part i x = k) ->
  part_value chunks ms part = k /\ forall q n, part_covariance chunks ms n part q = 0.
Proof. exact average_constant. Qed.
Print Assumptions C145_constant.

(** C145: it does not matter how agents represent a population: in which order, split into copies, or put together. *)
Theorem C145_populations :
  forall chunks chunks' ms ms' part q n, same_populations ms ms' ->
  part_value chunks' ms' part = part_value chunks ms part /\
  part_covariance chunks' ms' n part q = part_covariance chunks ms n part q.
Proof.
  intros chunks chunks' ms ms' part q n F. split; [exact (populations_value chunks chunks' ms ms' part F)|exact (populations_covariance chunks chunks' ms ms' n part q F)].
Qed.
Print Assumptions C145_populations.

Theorem C145_population_jacobians :
  forall ms ms' part, same_agents ms ms' -> part_jacobian 1 ms' part = part_jacobian 1 ms part.
Proof. exact agents_jacobian. Qed.
Print Assumptions C145_population_jacobians.

(** C145: markets without any survey weights do not matter. *)
Theorem C145_other_markets :
  forall chunks d ms part q n, not_surveyed d ->
  part_value chunks (d :: ms) part = part_value chunks ms part /\
  part_covariance chunks (d :: ms) n part q = part_covariance chunks ms n part q /\
  part_jacobian chunks (d :: ms) part = part_jacobian chunks ms part.
Proof. exact unsurveyed. Qed.
Print Assumptions C145_other_markets.

(** A survey about one product and the outside option, an agent who is split, and a market that is not surveyed. *)
Definition one_agent (w : R) : micro_market :=
  mk_micro_market 1 1 Nat.eqb (fun _ => 1) (fun _ _ => / 4) (fun _ _ => 1) (fun _ _ => w) (fun part _ x => match x with Single (Some _) => INR part | _ => 0 end).
Definition split_agent (w : R) : micro_market :=
  mk_micro_market 1 2 Nat.eqb (fun i => match i with O => / 3 | _ => 2 / 3 end) (fun _ _ => / 4) (fun _ _ => 1) (fun _ _ => w)
    (fun part _ x => match x with Single (Some _) => INR part | _ => 0 end).
Example C145_applies :
  0 < denominator 1 [(Two true, one_agent 2)] /\ same_agents [(Two true, one_agent 2)] [(Two true, split_agent 2)] /\
  not_surveyed (Two true, one_agent 0) /\ documented_shape 1 1 [1; 2]%nat.
Proof.
  split.
  { rewrite denominator_integral. cbn -[dataset_weight]. unfold dataset_weight. cbn -[truncate]. unfold outside. cbn -[truncate]. rewrite !truncate_nonneg by lra. lra. }
  split.
  { constructor; [|constructor]. split; [reflexivity|]. exists (fun _ => O). split.
    - constructor; cbn [snd one_agent split_agent m_J m_I m_same m_agent_weight m_p m_dp m_weight m_value]; intros; try reflexivity; try lia.
      + assert (i = O) by lia. subst i. cbn. lra.
      + destruct i; lra.
    - intros i Hi. cbn in Hi. exists O. cbn. split; lia. }
  split; [intros i x _ _; reflexivity|]. exists 2%nat. split; [right; reflexivity|left; reflexivity].
Qed.
