(** Theorems about micro moments and scores. *)
From Coq Require Import Reals List Bool Arith ZArith Lia Lra Sorted.
From Verif Require Import Base DemandSpec MicroModel MicroSpec MicroProofs DemandDeriv ProgressProofs.
Import ListNotations.
Local Open Scope R_scope.

(** ** C45: scores *)

(** With sorted IDs and data that cover exactly the markets [D] of the dataset, there is one score for each
    observation, in order of appearance, and it is the derivative of the observation's log probability
    [ln (N_n / sum of D_t over t in D)], which only depends on the observation's rows. *)
Theorem C45_scores_partial : forall {X} (data : list (micro_row X)) (D : list Z) (N : list (micro_row X) -> R -> R) (W : Z -> R -> R) num den theta,
  StronglySorted Z.le (map r_id data) -> NoDup D -> (forall t, In t D <-> In t (map r_market data)) ->
  (forall n, In n (map r_id data) -> fst (num (rows_with data n)) = N (rows_with data n) theta /\ 0 < N (rows_with data n) theta /\
    derivable_pt_lim (N (rows_with data n)) theta (snd (num (rows_with data n)))) ->
  (forall t, In t D -> fst (den t) = W t theta /\ 0 <= W t theta /\ derivable_pt_lim (W t) theta (snd (den t))) ->
  0 < sum_over D (fun t => W t theta) ->
  exists s, scores num den data = Some s /\ List.length s = List.length (appearances [] (map r_id data)) /\
    forall n k, nth_error (appearances [] (map r_id data)) k = Some n ->
      derivable_pt_lim (fun x => ln (N (rows_with data n) x / sum_over D (fun t => W t x))) theta (nth k s 0).
Proof.
  intros X data D N W num den theta S ND C HN HD HP. eexists. split; [apply (scores_form num den data D S ND C)|].
  split; [apply map_length|]. intros n k Hk.
  assert (Hn : In n (map r_id data)) by (apply (appearances_in (map r_id data) [] n), (nth_error_In _ k), Hk).
  destruct (HN n Hn) as (N1 & N2 & N3).
  rewrite (nth_error_nth _ k 0 (map_nth_error _ k _ Hk)). rewrite N1.
  rewrite (so_ext D (fun t => fst (den t)) (fun t => W t theta)) by (intros t Ht; apply HD, Ht).
  apply (log_deriv (N (rows_with data n)) (fun x => sum_over D (fun t => W t x))); try assumption.
  apply (so_deriv D W). intros t Ht. apply HD, Ht.
Qed.
Print Assumptions C45_scores_partial.

(** Scores do not depend on which other observations are passed, if the markets are the same. *)
Theorem C45_others_partial : forall {X} (data data' : list (micro_row X)) num den s s',
  (forall t, In t (map r_market data) <-> In t (map r_market data')) ->
  StronglySorted Z.le (map r_id data) -> StronglySorted Z.le (map r_id data') ->
  scores num den data = Some s -> scores num den data' = Some s' ->
  forall n k k', nth_error (appearances [] (map r_id data)) k = Some n -> nth_error (appearances [] (map r_id data')) k' = Some n ->
  rows_with data n = rows_with data' n -> nth k s 0 = nth k' s' 0.
Proof.
  intros X data data' num den s s' C S S' E E' n k k' Hk Hk' R.
  assert (ND : NoDup (nodup Z.eq_dec (map r_market data))) by apply NoDup_nodup.
  assert (C1 : forall t, In t (nodup Z.eq_dec (map r_market data)) <-> In t (map r_market data)) by (intro; apply nodup_In).
  assert (C2 : forall t, In t (nodup Z.eq_dec (map r_market data)) <-> In t (map r_market data')) by (intro; rewrite C1; apply C).
  rewrite (scores_form num den data _ S ND C1) in E. rewrite (scores_form num den data' _ S' ND C2) in E'.
  injection E as <-. injection E' as <-.
  rewrite (nth_error_nth _ k 0 (map_nth_error _ k _ Hk)), (nth_error_nth _ k' 0 (map_nth_error _ k' _ Hk')). rewrite R. reflexivity.
Qed.
Print Assumptions C45_others_partial.

(** Unsorted IDs are accepted, and scores come back in order of IDs. *)
Theorem C45_refuted_order :
  exists (data : list (micro_row Z)) num den, map r_id data = [2; 1]%Z /\
    scores num den data = Some [snd (num (rows_with data 1)); snd (num (rows_with data 2))] /\
    snd (num (rows_with data 1)) <> snd (num (rows_with data 2)).
Proof.
  exists [mk_micro_row 2 0 20; mk_micro_row 1 0 10]%Z, plain_numerator, plain_denominator. split; [reflexivity|].
  split; [exact scores_two_one|]. cbn. lra.
Qed.
Print Assumptions C45_refuted_order.

(** Leaving out an observation from another market changes the score of the remaining one. *)
Theorem C45_refuted_others :
  exists (row other : micro_row Z) num den s s', r_id row <> r_id other /\
    scores num den [row; other] = Some s /\ scores num den [row] = Some s' /\ nth 0 s 0 <> nth 0 s' 0.
Proof.
  exists (mk_micro_row 1 1 10)%Z, (mk_micro_row 2 3 20)%Z, plain_numerator, plain_denominator, [8; 18], [9].
  split; [cbn; lia|]. split; [apply scores_subset|]. split; [apply scores_subset|]. cbn. lra.
Qed.
Print Assumptions C45_refuted_others.

Example C45_applies : let data := [mk_micro_row 1 5 10; mk_micro_row 1 5 11; mk_micro_row 4 6 20]%Z in
  StronglySorted Z.le (map r_id data) /\ NoDup [6; 5]%Z /\ (forall t, In t [6; 5]%Z <-> In t (map r_market data)) /\
  appearances [] (map r_id data) = [1; 4]%Z /\
  (forall n, In n (map r_id data) -> derivable_pt_lim exp 0 (snd ((fun _ : list (micro_row Z) => (exp 0, exp 0)) (rows_with data n)))).
Proof.
  cbn. split; [repeat constructor; lia|]. split; [repeat constructor; cbn; lia|]. split; [intro; lia|]. split; [reflexivity|].
  intros. apply derivable_pt_lim_exp.
Qed.

(** ** C46: chunks *)
Theorem C46_chunks : forall s m n n' part part2,
  part_numerator s m n part = part_numerator s m n' part /\
  part_denominator s m n = part_denominator s m n' /\
  part_numerator_jacobian s m n part = part_numerator_jacobian s m n' part /\
  part_covariance_numerator s m n part part2 = part_covariance_numerator s m n' part part2 /\
  kept_weights m n = kept_weights m n'.
Proof.
  intros. unfold part_numerator, part_denominator, part_numerator_jacobian, part_covariance_numerator.
  rewrite !kept_all. rewrite !(chunk_sum_invariant s m _ n n'). repeat split; reflexivity.
Qed.
Print Assumptions C46_chunks.

(** Every agent is in exactly one chunk, in order. *)
Theorem C46_agents : forall I n, concat (micro_chunks I n) = seq 0 I.
Proof. exact chunks_concat. Qed.
Print Assumptions C46_agents.

(** Values of parts, moments and covariances. *)
Theorem C46_values : forall n n' ms part part2 P observed f obs,
  part_value n ms part = part_value n' ms part /\
  micro_moment n ms P observed (fun v => f (map v (seq 0 P))) = micro_moment n' ms P observed (fun v => f (map v (seq 0 P))) /\
  part_covariance n ms obs part part2 = part_covariance n' ms obs part part2.
Proof.
  intros. assert (V : forall q, part_value n ms q = part_value n' ms q).
  { intro q. unfold part_value. rewrite !numerator_total, !denominator_total. reflexivity. }
  split; [apply V|]. split.
  - unfold micro_moment. f_equal. f_equal. apply map_ext. intro. apply V.
  - unfold part_covariance. rewrite !V, !denominator_total.
    rewrite (so_ext ms (fun m => part_covariance_numerator (fst m) (snd m) n part part2) (fun m => part_covariance_numerator (fst m) (snd m) n' part part2)); [reflexivity|].
    intros m _. apply (C46_chunks (fst m) (snd m) n n' part part2).
Qed.
Print Assumptions C46_values.

(** Jacobians of denominators do not depend on chunks if survey weights do not vary across agents (or second
    choices), or if they vary within each chunk. *)
Theorem C46_denominators_partial : forall s m n n',
  constant_denominator s m (seq 0 (m_I m)) = true \/
  (forall c, In c (micro_chunks (m_I m) n) \/ In c (micro_chunks (m_I m) n') -> constant_denominator s m c = false) ->
  part_denominator_jacobian s m n = part_denominator_jacobian s m n'.
Proof.
  intros s m n n' [H|H].
  - rewrite !chunk_constant_jacobian by exact H. reflexivity.
  - rewrite !chunk_free_jacobian; [reflexivity| |]; intros c C; apply H; [right|left]; exact C.
Qed.
Print Assumptions C46_denominators_partial.

(** Jacobians of parts depend on the number of chunks, even when everything is smooth. *)
Theorem C46_refuted : exists d part, smooth_path 0 d /\
  derivable_pt_lim (fun x => part_value 1 [at_ x d] part) 0 (part_jacobian 1 [at_ 0 d] part) /\
  part_jacobian 2 [at_ 0 d] part <> part_jacobian 1 [at_ 0 d] part.
Proof.
  exists (Two false, two_agents, fun x i _ => / 2 + match i with O => x | _ => - x end), 0%nat.
  assert (E : forall n, part_jacobian n [at_ 0 (Two false, two_agents, fun x i _ => / 2 + match i with O => x | S _ => - x end)] 0
    = part_jacobian n [(Two false, two_agents)] 0).
  { intro n. unfold part_jacobian, part_value, numerator, denominator, numerator_jacobian, denominator_jacobian. cbn [sum_over fst snd at_].
    assert (W : forall i c, In c (cells (Two false) 1) -> (i < 2)%nat -> dataset_weight (with_p two_agents (fun i _ => / 2 + match i with O => 0 | S _ => - 0 end)) i c = dataset_weight two_agents i c).
    { intros i c C _. unfold dataset_weight. f_equal. f_equal. assert (EC : c = Single (Some 0%nat)) by (cbn in C; destruct C as [<-|[]]; reflexivity). subst c.
      cbn. destruct i; lra. }
    assert (T : forall i c, In c (cells (Two false) 1) -> weight_tangent (with_p two_agents (fun i _ => / 2 + match i with O => 0 | S _ => - 0 end)) i c = weight_tangent two_agents i c).
    { intros i c C. assert (EC : c = Single (Some 0%nat)) by (cbn in C; destruct C as [<-|[]]; reflexivity). subst c. reflexivity. }
    unfold part_numerator, part_denominator, part_numerator_jacobian, part_denominator_jacobian. rewrite !chunks_sum.
    rewrite (integral_ext (Two false) _ _ (dataset_weight (with_p two_agents (fun i _ => / 2 + match i with O => 0 | S _ => - 0 end))) (dataset_weight two_agents)) by (intros; apply W; assumption).
    rewrite (integral_ext (Two false) _ _ (fun i c => dataset_weight (with_p two_agents (fun i _ => / 2 + match i with O => 0 | S _ => - 0 end)) i c * m_value (with_p two_agents (fun i _ => / 2 + match i with O => 0 | S _ => - 0 end)) 0 i c) (fun i c => dataset_weight two_agents i c * m_value two_agents 0 i c))
      by (intros i c Hi C; rewrite (W i c C Hi); reflexivity).
    rewrite (integral_ext (Two false) _ _ (fun i c => weight_tangent (with_p two_agents (fun i _ => / 2 + match i with O => 0 | S _ => - 0 end)) i c * m_value (with_p two_agents (fun i _ => / 2 + match i with O => 0 | S _ => - 0 end)) 0 i c) (fun i c => weight_tangent two_agents i c * m_value two_agents 0 i c))
      by (intros i c Hi C; rewrite (T i c C); reflexivity).
    reflexivity. }
  split; [exact two_agents_smooth|]. split.
  - apply (part_value_deriv [(Two false, two_agents, fun x i _ => / 2 + match i with O => x | _ => - x end)] 0 1 0).
    + intros d [<-|[]]. exact two_agents_smooth.
    + lia.
    + cbn [map]. rewrite denominator_total. unfold total. cbn [sum_over]. cbn. unfold dataset_weight. cbn. rewrite !truncate_nonneg; lra.
  - rewrite !E. destruct two_agents_parts as [-> ->]. lra.
Qed.
Print Assumptions C46_refuted.

Example C46_applies : constant_denominator (Two false) two_agents [0%nat] = true /\
  micro_chunks 5 2 = [[0; 1; 2]; [3; 4]]%nat /\ micro_chunks 2 5 = [[0]; [1]]%nat.
Proof.
  split; [|split; reflexivity]. unfold constant_denominator, two_agents. cbn [m_J m_weight cells options_of app map seq forallb]. rewrite reqb_refl. reflexivity.
Qed.

(** ** C47: first and second choices *)

(** Probabilities that multiply weights are documented ones: logit probabilities of first choices times those
    of second choices, once the first choice has been removed. *)
Theorem C47_documented : forall J V c,
  (forall a, c = Single a -> in_range J a) -> (forall a b, c = Pair a b -> in_range J a /\ in_range J b) ->
  probability J product_alone (logit J all_goods true V) c = documented J product_alone V c.
Proof. exact probability_documented. Qed.
Print Assumptions C47_documented.

(** They are a joint distribution for any positive probabilities with something left for the outside option. *)
Theorem C47_joint : forall J p, proper J p -> (0 < J)%nat ->
  (forall a b, in_range J a -> in_range J b -> 0 <= probability J product_alone p (Pair a b)) /\
  (forall a, in_range J a -> sum_over (all_options J) (fun b => probability J product_alone p (Pair a b)) = probability J product_alone p (Single a)) /\
  (forall a, probability J product_alone p (Pair a a) = 0) /\
  sum_over (all_options J) (fun a => probability J product_alone p (Single a)) = 1.
Proof.
  intros J p P HJ. split; [|split; [|split]].
  - intros a b Ha Hb. apply cell_nonneg; [exact P|intros; discriminate|]. intros a' b' E. injection E as <- <-. split; assumption.
  - intros a Ha. apply second_sum; assumption.
  - intro a. apply second_zero.
  - unfold all_options. cbn [sum_over probability]. rewrite so_map, so_seq. unfold outside. change (fun x : nat => p x) with p. ring.
Qed.
Print Assumptions C47_joint.

(** Second choices given first choices follow the same ratios: independence of irrelevant alternatives. *)
Theorem C47_ratios : forall J p j k l, proper J p -> (j < J)%nat -> (k < J)%nat -> (l < J)%nat -> k <> j -> l <> j ->
  probability J product_alone p (Pair (Some j) (Some k)) * p l = probability J product_alone p (Pair (Some j) (Some l)) * p k.
Proof.
  intros J p j k l P Hj Hk Hl Nk Nl. rewrite !pair_inside by (try assumption; congruence). unfold Rdiv. ring.
Qed.
Print Assumptions C47_ratios.

Example C47_applies : proper 2 (fun k => match k with O => / 4 | _ => / 2 end) /\
  probability 2 product_alone (fun k => match k with O => / 4 | _ => / 2 end) (Pair (Some 0%nat) (Some 1%nat)) = / 6.
Proof.
  split; [split; [intros [|j] _; lra|cbn [sumn]; lra]|]. cbn [probability Nat.eqb]. unfold eliminated, removed, product_alone. cbn [sumn Nat.eqb]. field.
Qed.

(** ** C77: simulated parts *)
Theorem C77_parts_partial : forall chunks ms part,
  (forall d, In d ms -> from_utilities d /\ nonnegative_weights d /\ forall j k, m_same (snd (fst d)) j k = product_alone j k) ->
  part_value chunks (map fst ms) part = documented_part ms part.
Proof. exact parts_documented. Qed.
Print Assumptions C77_parts_partial.

(** Agents with negative integration weights are dropped. *)
Theorem C77_refuted_negative : exists d, from_utilities d /\ (forall i c, 0 <= m_weight (snd (fst d)) i c) /\
  (forall j k, m_same (snd (fst d)) j k = product_alone j k) /\
  sumn (m_I (snd (fst d))) (m_agent_weight (snd (fst d))) = 1 /\
  forall chunks, part_value chunks (map fst [d]) 0 <> documented_part [d] 0.
Proof.
  exists (Two false, grid_market (fun _ _ => 0), fun _ _ => 0). split; [intros i j; reflexivity|]. split; [intros; cbn; lra|].
  split; [reflexivity|]. split; [cbn; lra|]. intro chunks. rewrite grid_documented. cbn [map fst]. rewrite grid_value. lra.
Qed.
Print Assumptions C77_refuted_negative.

(** When groups of products are eliminated, the first choice is weighted by the share of its group. *)
Theorem C77_refuted_groups : exists d, from_utilities d /\ nonnegative_weights d /\
  forall chunks, part_value chunks (map fst [d]) 0 <> documented_part [d] 0.
Proof.
  exists (Three false true, group_market group_utilities, fun _ => group_utilities). split; [intros i j; reflexivity|].
  split; [split; intros; cbn; lra|]. intro chunks. rewrite group_documented. cbn [map fst]. rewrite group_value. lra.
Qed.
Print Assumptions C77_refuted_groups.

Example C77_applies : let d := (Three true true, mk_micro_market 2 2 Nat.eqb (fun _ => / 2) (fun i => logit 2 all_goods true (fun j => INR (i + j))) (fun _ _ => 0) (fun _ _ => 1) (fun _ _ _ => 3),
    fun i j => INR (i + j)) in
  from_utilities d /\ nonnegative_weights d /\ forall j k, m_same (snd (fst d)) j k = product_alone j k.
Proof. cbv zeta. split; [intros i j; reflexivity|]. split; [split; intros; cbn; lra|reflexivity]. Qed.

(** ** C78: Jacobians *)
Theorem C78_jacobian_partial : forall ds t chunks P observed f g,
  (forall d, In d ds -> smooth_path t d) -> (chunks <= 1)%nat -> denominator chunks (map (at_ t) ds) <> 0 -> gradient_of P f g ->
  (forall part, derivable_pt_lim (fun x => part_value chunks (map (at_ x) ds) part) t (part_jacobian chunks (map (at_ t) ds) part)) /\
  derivable_pt_lim (fun x => micro_moment chunks (map (at_ x) ds) P observed f) t (micro_jacobian chunks (map (at_ t) ds) P g).
Proof.
  intros. split; [intro; apply part_value_deriv; assumption|apply micro_deriv; assumption].
Qed.
Print Assumptions C78_jacobian_partial.

(** Derivatives of probabilities of second choices, for any groups of eliminated products. *)
Theorem C78_tangent : forall J same (p : R -> nat -> R) dp t c,
  (forall j, (j < J)%nat -> derivable_pt_lim (fun x => p x j) t (dp j)) -> (forall j, (j < J)%nat -> p t j <> 0) ->
  (forall a, c = Single a -> in_range J a) -> (forall a b, c = Pair a b -> in_range J a /\ in_range J b) ->
  (forall j, (j < J)%nat -> 1 - removed J same (p t) j <> 0) -> ((0 < J)%nat -> sumn J (p t) <> 0) ->
  derivable_pt_lim (fun x => probability J same (p x) c) t (tangent J same (p t) dp c).
Proof. intros. apply tangent_deriv; assumption. Qed.
Print Assumptions C78_tangent.

(** With groups of eliminated products, weights are truncated but their tangents are not. *)
Theorem C78_refuted : exists d t, smooth_path t (ungrouped d) /\ denominator 1 [at_ t d] <> 0 /\
  ~ derivable_pt_lim (fun x => part_value 1 [at_ x d] 0) t (part_jacobian 1 [at_ t d] 0).
Proof.
  exists group_path, 0. split; [exact group_smooth|]. split; [rewrite group_path_denominator; lra|exact group_not_derivative].
Qed.
Print Assumptions C78_refuted.

Example C78_applies : smooth_path 0 (Two false, two_agents, fun x i _ => / 2 + match i with O => x | _ => - x end) /\
  gradient_of 1 (fun v => v 0%nat * v 0%nat) (fun v _ => 2 * v 0%nat).
Proof.
  split; [exact two_agents_smooth|]. intros v dv t H. eapply deriv_eq.
  - apply (deriv_mult (fun x => v x 0%nat) (fun x => v x 0%nat)); apply H; lia.
  - cbn [sumn]. ring.
Qed.

(** ** C79: covariances of parts *)
Theorem C79_covariance : forall chunks ms observations p q, denominator chunks ms <> 0 -> observations <> 0 ->
  part_covariance chunks ms observations p q * observations * denominator chunks ms
  = sum_over ms (fun m => integral (fst m) (m_J (snd m)) (m_I (snd m)) (fun i c =>
      dataset_weight (snd m) i c * (m_value (snd m) p i c - part_value chunks ms p) * (m_value (snd m) q i c - part_value chunks ms q))).
Proof. exact covariance_form. Qed.
Print Assumptions C79_covariance.

(** Covariances are the documented ones, under the same conditions as C77. *)
Theorem C79_documented_partial : forall chunks ms observations p q,
  (forall d, In d ms -> from_utilities d /\ nonnegative_weights d /\ forall j k, m_same (snd (fst d)) j k = product_alone j k) ->
  documented_total ms (fun _ _ _ => 1) <> 0 -> observations <> 0 ->
  part_covariance chunks (map fst ms) observations p q
  = documented_total ms (fun m i c => (m_value m p i c - documented_part ms p) * (m_value m q i c - documented_part ms q))
    / documented_total ms (fun _ _ _ => 1) / observations.
Proof. exact covariance_documented. Qed.
Print Assumptions C79_documented_partial.

Theorem C79_symmetric : forall chunks ms observations p q, part_covariance chunks ms observations p q = part_covariance chunks ms observations q p.
Proof. exact covariance_symmetric. Qed.
Print Assumptions C79_symmetric.

Theorem C79_semidefinite : forall chunks ms observations P a, 0 < denominator chunks ms -> 0 < observations ->
  0 <= sumn P (fun p => sumn P (fun q => a p * part_covariance chunks ms observations p q * a q)).
Proof. exact covariance_psd. Qed.
Print Assumptions C79_semidefinite.

Example C79_applies : denominator 2 [(Two false, two_agents)] = 3 / 4 /\ part_covariance 2 [(Two false, two_agents)] 10 0 0 = / 45.
Proof.
  assert (D : denominator 2 [(Two false, two_agents)] = 3 / 4) by (unfold denominator; cbn [sum_over fst snd]; rewrite two_agents_denominator; ring).
  split; [exact D|]. assert (N : numerator 2 [(Two false, two_agents)] 0 = / 4) by (unfold numerator; cbn [sum_over fst snd]; rewrite two_agents_numerator; ring).
  unfold part_covariance, part_value. rewrite D, N. cbn [sum_over fst snd]. unfold part_covariance_numerator. rewrite chunks_sum.
  rewrite (integral_ext _ _ _ _ (fun i _ => match i with O => / 4 | _ => 0 end)).
  - unfold integral. cbn [two_agents m_I m_J sumn cells options_of app map seq sum_over]. field.
  - intros i c Hi C. rewrite two_agents_weight by assumption. unfold two_agents. cbn [m_value]. destruct i; field.
Qed.
